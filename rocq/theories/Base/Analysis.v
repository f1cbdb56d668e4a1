(** Continuity / integration helpers specialised to R (Coquelicot). *)
From Coq Require Import Reals Lra.
From Coquelicot Require Import Coquelicot.
Open Scope R_scope.

Lemma cont_const (c x : R) : continuous (fun _ : R => c) x.
Proof. apply continuous_const. Qed.
Lemma cont_id (x : R) : continuous (fun x : R => x) x.
Proof. apply continuous_id. Qed.
Lemma cont_plus (f g : R -> R) x : continuous f x -> continuous g x -> continuous (fun x => f x + g x) x.
Proof. intros. now apply (continuous_plus f g). Qed.
Lemma cont_minus (f g : R -> R) x : continuous f x -> continuous g x -> continuous (fun x => f x - g x) x.
Proof. intros. now apply (continuous_minus f g). Qed.
Lemma cont_opp (f : R -> R) x : continuous f x -> continuous (fun x => - f x) x.
Proof. intros. now apply (continuous_opp f). Qed.
Lemma cont_mult (f g : R -> R) x : continuous f x -> continuous g x -> continuous (fun x => f x * g x) x.
Proof. intros. now apply (continuous_mult f g). Qed.
Lemma cont_scal (c : R) (f : R -> R) x : continuous f x -> continuous (fun x => c * f x) x.
Proof. intros. apply cont_mult; auto. apply cont_const. Qed.
Lemma cont_comp (f g : R -> R) x : continuous f x -> continuous g (f x) -> continuous (fun x => g (f x)) x.
Proof. intros. now apply (continuous_comp f g). Qed.
Lemma cont_pow (f : R -> R) n x : continuous f x -> continuous (fun x => f x ^ n) x.
Proof. intros. induction n; cbn; [apply cont_const|now apply cont_mult]. Qed.
Lemma cont_sqrt (f : R -> R) x : continuous f x -> continuous (fun x => sqrt (f x)) x.
Proof. intros. apply cont_comp; auto. apply continuous_sqrt. Qed.
Lemma cont_abs (f : R -> R) x : continuous f x -> continuous (fun x => Rabs (f x)) x.
Proof. intros. apply (cont_comp f Rabs); auto. apply continuous_Rabs. Qed.
Lemma cont_Rmax (f g : R -> R) x : continuous f x -> continuous g x -> continuous (fun x => Rmax (f x) (g x)) x.
Proof.
  intros. apply continuous_ext with (fun x => /2 * ((f x + g x) + Rabs (f x - g x))).
  { intros y. unfold Rmax, Rabs. destruct (Rle_dec _ _), (Rcase_abs _); lra. }
  apply cont_scal, cont_plus; [now apply cont_plus|]. now apply cont_abs, cont_minus.
Qed.
Lemma cont_Rmin (f g : R -> R) x : continuous f x -> continuous g x -> continuous (fun x => Rmin (f x) (g x)) x.
Proof.
  intros. apply continuous_ext with (fun x => /2 * ((f x + g x) - Rabs (f x - g x))).
  { intros y. unfold Rmin, Rabs. destruct (Rle_dec _ _), (Rcase_abs _); lra. }
  apply cont_scal, cont_minus; [now apply cont_plus|]. now apply cont_abs, cont_minus.
Qed.
Lemma cont_sin (f : R -> R) x : continuous f x -> continuous (fun x => sin (f x)) x.
Proof. intros. apply (cont_comp f sin); auto. apply continuous_sin. Qed.
Lemma cont_cos (f : R -> R) x : continuous f x -> continuous (fun x => cos (f x)) x.
Proof. intros. apply (cont_comp f cos); auto. apply continuous_cos. Qed.
Lemma cont_div (f g : R -> R) x : continuous f x -> continuous g x -> g x <> 0 -> continuous (fun x => f x / g x) x.
Proof.
  intros. unfold Rdiv. apply cont_mult; auto. apply (cont_comp g Rinv); auto.
  apply continuity_pt_filterlim. apply continuity_pt_inv; auto. apply derivable_continuous_pt, derivable_pt_id.
Qed.
Lemma rint_chasles (f : R -> R) a b c v1 v2 v : is_RInt f a b v1 -> is_RInt f b c v2 -> v1 + v2 = v ->
  is_RInt f a c v.
Proof. intros H1 H2 <-. exact (is_RInt_Chasles f a b c v1 v2 H1 H2). Qed.
Lemma rint_swap (f : R -> R) a b v : is_RInt f b a (- v) -> is_RInt f a b v.
Proof.
  intros H. apply (is_RInt_swap f) in H. replace v with (opp (- v)); [exact H|]. unfold opp; cbn; ring.
Qed.
