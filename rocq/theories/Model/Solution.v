(** Model of starry/core/solution.py.  Floats are exact reals. *)
From Coq Require Import Reals Lra Lia ZArith List Bool Arith.
From Verif Require Import Base.RealAux.
Import ListNotations.
Open Scope R_scope.

(** rt[i] = v on a list of the right length, the list being a total function of its index *)
Definition rset (rt : nat -> R) (i : nat) (v : R) : nat -> R := fun n => if (n =? i)%nat then v else rt n.
(** range(a, b, 4) *)
Definition nrange4 (a b : nat) : list nat := map (fun i => (a + 4 * i)%nat) (seq 0 ((b - a + 3) / 4)).

(** solution.py:223-231, 243-251: the body of the inner loop; m <= ell, so that every index is
    a natural number *)
Definition rT_inner (lmax ell : nat) (lfac1 lfac2 : R) (st : (nat -> R) * R) (m : nat) : (nat -> R) * R :=
  let '(rt, amp) := st in
  let mu := INR ell - INR m in
  let nu := INR ell + INR m in
  let rt := rset rt (ell * ell + ell + m) (amp * lfac1) in
  let rt := rset rt (ell * ell + ell - m) (amp * lfac1) in
  let rt := if (ell <? lmax)%nat then
              let rt := rset rt ((ell + 1) * (ell + 1) + ell + m + 1) (amp * lfac2) in
              rset rt ((ell + 1) * (ell + 1) + ell - m + 1) (amp * lfac2)
            else rt in
  (rt, amp * ((nu + 2) / (mu - 2))).
(** solution.py:221-234, 241-254: one iteration of the outer loops; [m0] is the first value of m
    and [grow] the update of amp0 *)
Definition rT_outer (lmax m0 : nat) (grow : R -> R) (st : (nat -> R) * R * R * R) (ell : nat) : (nat -> R) * R * R * R :=
  let '(rt, amp0, lfac1, lfac2) := st in
  let '(rt, _) := fold_left (rT_inner lmax ell lfac1 lfac2) (nrange4 m0 (ell + 1)) (rt, amp0) in
  (rt, amp0 * grow (INR ell), lfac1 / ((INR ell / 2 + 2) * (INR ell / 2 + 3)),
   lfac2 / ((INR ell / 2 + 5 / 2) * (INR ell / 2 + 7 / 2))).
(** solution.py:216-255 [rT] *)
Definition rT_fun (lmax : nat) : nat -> R :=
  let '(rt, _, _, _) := fold_left (rT_outer lmax 0 (fun l => / 16 * (l + 2) * (l + 2))) (nrange4 0 (lmax + 1))
                                  ((fun _ => 0), PI, 1, 2 / 3) in
  let '(rt, _, _, _) := fold_left (rT_outer lmax 2 (fun l => / 16 * l * (l + 4))) (nrange4 2 (lmax + 1))
                                  (rt, / 2 * PI, / 2, 4 / 15) in
  rt.
Definition rT (lmax : nat) : list R := map (rT_fun lmax) (seq 0 ((lmax + 1) * (lmax + 1))).
