(** Model of units/decorator.py and units/field.py.

    A multiplicative unit is a dimension (exponents of the base dimensions) and a positive scale to
    base units; pint's offset units (degC, ...) and logarithmic units are not modelled.  Magnitudes are
    reals (arrays behave elementwise).  Values passed to functions are pytrees whose leaves are plain
    numbers or quantities; Python's None is a pytree node without leaves. *)
From Coq Require Import Reals ZArith List Bool String.
From Verif Require Import Base.RealAux Base.Dict.
Import ListNotations.
Open Scope R_scope.

Record unit_t := Unit { u_dim : list Z; u_scale : R }.
Inductive val := VPlain (x : R) | VQ (m : R) (u : unit_t) | VNone | VNode (tag : nat) (ch : list val).
(** unit specifications given to the decorator: pytrees of units, None to skip *)
Inductive uspec := UNone | UUnit (u : unit_t) | UNode (tag : nat) (ch : list uspec).

Definition dim_eqb (a b : list Z) : bool := if list_eq_dec Z.eq_dec a b then true else false.
(** pint Quantity.to *)
Definition q_to (m : R) (u target : unit_t) : result val :=
  if dim_eqb (u_dim u) (u_dim target) then Ok (VQ (m * u_scale u / u_scale target) target)
  else Err DimensionalityError.

(** decorator.py:179-198 [_apply_units], on a leaf *)
Definition apply_units (strict : bool) (v : val) (u : uspec) : result val :=
  match u with
  | UNone => Ok v
  | UUnit u =>
      match v with
      | VQ m u' => q_to m u' u
      | _ => if strict then Err ValueError
             else match v with VPlain x => Ok (VQ x u) | _ => Err TypeError end
      end
  | UNode _ _ => Err TypeError (* a container is not a unit *)
  end.
(** jax.tree_util.tree_map(partial(_apply_units, ...), value, unit, is_leaf=_is_quantity):
    the unit tree must have the value's structure as a prefix *)
Fixpoint map_units (strict : bool) (v : val) (u : uspec) : result val :=
  match v with
  | VPlain _ | VQ _ _ => apply_units strict v u
  | VNone => match u with UNone => Ok VNone | _ => Err ValueError end
  | VNode g ch =>
      match u with
      | UNode g' us =>
          if Nat.eqb g g' then
            rbind ((fix go ch us := match ch, us with
                                    | [], [] => Ok []
                                    | c :: ch, u :: us => rbind (map_units strict c u) (fun c => rbind (go ch us) (fun r => Ok (c :: r)))
                                    | _, _ => Err ValueError
                                    end) ch us) (fun ch => Ok (VNode g ch))
          else Err ValueError
      | _ => Err ValueError
      end
  end.

(** inspect.Signature *)
Inductive kind := PosOrKw | KwOnly | VarPos | VarKw.
Record param := Param { p_name : string; p_kind : kind; p_default : option val }.
Definition seqb : string -> string -> bool := String.eqb.
Definition args_tag : nat := 0.
Definition kwargs_tag : nat := 1.
Fixpoint dremove {A} (k : string) (d : list (string * A)) : list (string * A) :=
  match d with [] => [] | (k', v) :: r => if seqb k k' then r else (k', v) :: dremove k r end.
(** signature.bind(...) followed by apply_defaults() *)
Fixpoint bind (sig : list param) (args : list val) (kwargs : list (string * val)) : result (list (string * val)) :=
  match sig with
  | [] => match args, kwargs with [], [] => Ok [] | _, _ => Err TypeError end
  | p :: sig =>
      let continue v args kwargs := rbind (bind sig args kwargs) (fun r => Ok ((p_name p, v) :: r)) in
      let by_name :=
        match dget seqb (p_name p) kwargs with
        | Some v => continue v [] (dremove (p_name p) kwargs)
        | None => match p_default p with Some d => continue d [] kwargs | None => Err TypeError end
        end in
      match p_kind p with
      | PosOrKw => match args with
                   | a :: args => if dmem seqb (p_name p) kwargs then Err TypeError else continue a args kwargs
                   | [] => by_name
                   end
      | KwOnly => match args with [] => by_name | _ => Err TypeError end
      | VarPos => continue (VNode args_tag args) [] kwargs
      | VarKw => match args with [] => continue (VNode kwargs_tag (map snd kwargs)) [] [] | _ => Err TypeError end
      end
  end.

Fixpoint find_param (n : string) (sig : list param) : option param :=
  match sig with [] => None | p :: sig => if seqb n (p_name p) then Some p else find_param n sig end.
Definition is_var (k : kind) : bool := match k with VarPos | VarKw => true | _ => false end.
(** decorator.py:132-152: which parameter gets which unit *)
Definition unit_of (units : list (string * uspec)) (n : string) : uspec :=
  match dget seqb n units with Some u => u | None => UNone end.
Definition check_decoration (sig : list param) (units : list (string * uspec)) : bool :=
  forallb (fun e => match find_param (fst e) sig with Some p => negb (is_var (p_kind p)) | None => false end) units.
(** decorator.py:159-172: one bound argument *)
Definition convert_arg (strict : bool) (sig : list param) (units : list (string * uspec)) (e : string * val) : result (string * val) :=
  let '(n, v) := e in
  match v, find_param n sig with
  | VNone, Some (Param _ _ (Some VNone)) => Ok (n, v)
  | _, _ => match unit_of units n with
            | UNone => Ok (n, v)
            | u => rbind (map_units strict v u) (fun v => Ok (n, v))
            end
  end.
Fixpoint convert_all (strict : bool) (sig : list param) (units : list (string * uspec)) (b : list (string * val)) : result (list (string * val)) :=
  match b with
  | [] => Ok []
  | e :: b => rbind (convert_arg strict sig units e) (fun e => rbind (convert_all strict sig units b) (fun b => Ok (e :: b)))
  end.
(** decorator.py:131-176 [QuantityInput.__call__] and its wrapper; the wrapped function is a function of
    its bound arguments *)
Definition quantity_input {B} (strict : bool) (units : list (string * uspec)) (sig : list param)
    (func : list (string * val) -> result B) : result (list val -> list (string * val) -> result B) :=
  if check_decoration sig units then
    Ok (fun args kwargs => rbind (bind sig args kwargs) (fun b => rbind (convert_all strict sig units b) func))
  else Err TypeError.

(** field.py:10-34: the converter of a field with units *)
Definition field_converter (strict : bool) (units : uspec) (original : val -> result val) (v : val) : result val :=
  match units with
  | UNone => original v
  | _ => match v with VNone => Ok VNone | _ => rbind (original v) (fun v => map_units strict v units) end
  end.
