(** What "normalising units" means, independently of the decorator. *)
From Coq Require Import Reals ZArith List String.
From Verif Require Import Base.RealAux Base.Dict Model.Units.
Import ListNotations.
Open Scope R_scope.

(** physical value in base units *)
Definition physical (m : R) (u : unit_t) : R := m * u_scale u.
Definition same_dimension (u u' : unit_t) : Prop := u_dim u = u_dim u'.
Definition unit_ok (u : unit_t) : Prop := 0 < u_scale u.
Inductive spec_ok : uspec -> Prop :=
| SO_none : spec_ok UNone
| SO_unit u : unit_ok u -> spec_ok (UUnit u)
| SO_node g ch : Forall spec_ok ch -> spec_ok (UNode g ch).
(** [normalised v u w]: w is the value v expressed in the units u.  A plain number is taken to be in the
    declared unit; a quantity keeps its physical value; None skips. *)
Inductive normalised : val -> uspec -> val -> Prop :=
| N_plain x u : normalised (VPlain x) (UUnit u) (VQ x u)
| N_quantity m u' m' u : same_dimension u' u -> physical m' u = physical m u' -> normalised (VQ m u') (UUnit u) (VQ m' u)
| N_skip_plain x : normalised (VPlain x) UNone (VPlain x)
| N_skip_quantity m u : normalised (VQ m u) UNone (VQ m u)
| N_none : normalised VNone UNone VNone
| N_node g vs us ws : normalised_list vs us ws -> normalised (VNode g vs) (UNode g us) (VNode g ws)
with normalised_list : list val -> list uspec -> list val -> Prop :=
| NL_nil : normalised_list [] [] []
| NL_cons v u w vs us ws : normalised v u w -> normalised_list vs us ws -> normalised_list (v :: vs) (u :: us) (w :: ws).
(** all leaves with a declared unit are quantities already *)
Inductive all_quantities : val -> uspec -> Prop :=
| AQ_q m u' u : all_quantities (VQ m u') u
| AQ_plain x : all_quantities (VPlain x) UNone
| AQ_none : all_quantities VNone UNone
| AQ_node g vs us : Forall2 all_quantities vs us -> all_quantities (VNode g vs) (UNode g us).
(** what the decorated function receives for one parameter *)
Definition arg_normalised (sig : list param) (units : list (string * uspec)) (e e' : string * val) : Prop :=
  fst e' = fst e /\
  ((snd e = VNone /\ (exists k, find_param (fst e) sig = Some (Param (fst e) k (Some VNone))) /\ snd e' = VNone) \/
   (unit_of units (fst e) = UNone /\ snd e' = snd e) \/
   normalised (snd e) (unit_of units (fst e)) (snd e')).
