(** Model of src/jaxoplanet/light_curves/transforms.py and light_curves/utils.py.
    Times and fluxes are reals in the declared unit (unit normalisation is modelled in
    Model/Units.v); [num_samples] is a natural number (negative counts are rejected by
    jnp.ones and not modelled); extra args/kwargs of the light curve are closed over. *)
From Coq Require Import Reals ZArith List Bool Arith.
From Verif.Base Require Import RealAux.
Import ListNotations.
Open Scope R_scope.

(** An exposure time argument: None, a 0-d value, or an array with ndim >= 1. *)
Inductive exposure := ENone | EScalar (T : R) | EArray (ndim_minus_1 : nat).

(** jnp.linspace(a, b, n)[i] (n = 1 gives [a]) *)
Definition linspace (a b : R) (n i : nat) : R :=
  if (n =? 1)%nat then a else a + (b - a) * INR i / INR (n - 1).

(** python slice [start:-1:2] on an axis of length [len]: does it select index [i]? *)
Definition in_slice2 (start len i : nat) : bool :=
  ((start <=? i) && (i <? len - 1) && (Nat.even (i - start)))%nat.

(** transforms.py:72-74: force an odd number of samples *)
Definition odd_samples (n : nat) : nat := (n + (1 - n mod 2))%nat.

(** transforms.py:77-93: (dt, un-normalised stencil) for each accepted order *)
Definition stencil_raw (order n : nat) : list (R * R) :=
  match order with
  | O => map (fun i => (linspace (-0.5) 0.5 (2 * n + 1) i, 1))
             (filter (in_slice2 1 (2 * n + 1)) (seq 0 (2 * n + 1)))
  | S O => map (fun i => (linspace (-0.5) 0.5 n i,
                          if (i =? n - 1)%nat then 1 else if (i =? 0)%nat then 1 else 2))
               (seq 0 n)
  | _ => map (fun i => (linspace (-0.5) 0.5 n i,
                        if in_slice2 2 n i then 2 else if in_slice2 1 n i then 4 else 1))
             (seq 0 n)
  end.
(** transforms.py:94-95 *)
Definition stencil (order n : nat) (T : R) : list (R * R) :=
  let raw := stencil_raw order n in
  map (fun p => (fst p * T, snd p / Rsum (map snd raw))) raw.

(** transforms.py:116-119 [apply_exposure_time_integration] *)
Definition apply_exposure (st : list (R * R)) (func : R -> R) (time : R) : R :=
  Rsum (map (fun p => snd p * func (time + fst p)) st).

(** transforms.py:25-113 [integrate] *)
Definition integrate (func : R -> R) (exposure_time : exposure) (order : Z) (num_samples : nat)
  : result (R -> R) :=
  match exposure_time with
  | ENone => Ok func
  | EArray _ => Err ValueError
  | EScalar T =>
      if ((order =? 0) || (order =? 1) || (order =? 2))%Z
      then Ok (apply_exposure (stencil (Z.to_nat order) (odd_samples num_samples) T) func)
      else Err ValueError
  end.

(** jnp.interp(x, xp, fp, period=p): keys taken modulo the period, stable sort by key,
    one point wrapped on each side, then piecewise-linear interpolation in the bracket
    found by searchsorted(side='right').  JAX library behaviour ([left]/[right] are
    ignored when a period is given); the guard |dx| <= spacing(eps) is modelled as dx = 0. *)
Fixpoint insert_key (p : R * R) (l : list (R * R)) : list (R * R) :=
  match l with
  | [] => [p]
  | q :: l' => if Rltb (fst q) (fst p) then q :: insert_key p l'
               else p :: q :: l'
  end.
(* inserting from the right keeps earlier elements before equal later ones: stable *)
Fixpoint sort_key (l : list (R * R)) : list (R * R) :=
  match l with [] => [] | p :: l' => insert_key p (sort_key l') end.
(** fp[i-1], fp[i] for the bracket containing x: scan while the next key is <= x *)
Definition interp_seg (x : R) (p q : R * R) : R :=
  let dx := fst q - fst p in
  if Reqb dx 0 then snd p
  else snd p + (x - fst p) / dx * (snd q - snd p).
Fixpoint interp_scan (x : R) (p : R * R) (l : list (R * R)) : R :=
  match l with
  | [] => snd p
  | [q] => interp_seg x p q
  | q :: l' => if Rleb (fst q) x then interp_scan x q l' else interp_seg x p q
  end.
Definition interp_periodic (x : R) (grid : list (R * R)) (period : R) : R :=
  let pts := sort_key (map (fun p => (Rmod (fst p) period, snd p)) grid) in
  match pts with
  | [] => 0
  | p0 :: _ =>
      let pn := last pts p0 in
      interp_scan (Rmod x period) (fst pn - period, snd pn)
                  (pts ++ [(fst p0 + period, snd p0)])
  end.

(** transforms.py:162-165: the pre-computed grid *)
Definition interp_grid (func : R -> R) (period time_transit : R) (duration : option R)
  (num_samples : nat) : list (R * R) :=
  let duration := match duration with None => period | Some d => d end in
  map (fun i => let t := time_transit + duration * linspace (-0.5) 0.5 num_samples i in
                (t, func t)) (seq 0 num_samples).
(** transforms.py:174-197 [interpolate]; [num_samples = 0] raises (indexing an empty
    flux array), modelled as IndexError. *)
Definition interpolate (func : R -> R) (period time_transit : R) (duration : option R)
  (num_samples : nat) : result (R -> R) :=
  let grid := interp_grid func period time_transit duration num_samples in
  if (num_samples =? 0)%nat then Err IndexError else
  Ok (fun time =>
    let time_wrapped := Rmod (time - time_transit + 0.5 * period) period
                        + 0.5 * period + time_transit in
    interp_periodic time_wrapped grid period).

(** N-dimensional arrays with leaves in A. *)
Inductive nd (A : Type) := Leaf (a : A) | Axis (l : list (nd A)).
Arguments Leaf {A}. Arguments Axis {A}.

(** jax.vmap over the leading axis; a 0-d input is an error *)
Definition vmap1 {A B} (f : nd A -> result (nd B)) (x : nd A) : result (nd B) :=
  match x with
  | Leaf _ => Err ValueError
  | Axis l => rbind (fold_right (fun y acc => rbind (f y) (fun z => rbind acc (fun zs => Ok (z :: zs))))
                                (Ok []) l) (fun zs => Ok (Axis zs))
  end.
(** a time argument: python scalar (no .shape), plain array, or Quantity(magnitude, unit);
    arrays carry their shape *)
Inductive time_arg :=
  TPlain (x : R) | TArray (shape : list nat) (x : nd R)
| TQuantity (shape : list nat) (x : nd R) (unit : R).

(** light_curves/utils.py:13-47 [vectorize]; [func] takes a scalar time expressed in
    base units: a quantity m*unit, or the plain magnitude. *)
Definition vectorize {B} (func : R -> B) (time : time_arg) : result (nd B) :=
  match time with
  | TPlain _ => Err AttributeError
  | TArray s x =>
      let inner y := match y with Leaf m => Ok (Leaf (func m)) | Axis _ => Err TypeError end in
      Nat.iter (length s) vmap1 inner x
  | TQuantity s x u =>
      let inner y := match y with Leaf m => Ok (Leaf (func (m * u))) | Axis _ => Err TypeError end in
      Nat.iter (length s) vmap1 inner x
  end.
