(** Gradients of occulted spherical-harmonic light curves: products of polynomials and fluxes. *)
From Coq Require Import Reals List Bool Arith ZArith Lia Lra Psatz.
From Coquelicot Require Import Hierarchy Derive Continuity Rbar Rcomplements ElemFct AutoDerive.
From Verif Require Import Base.RealAux Base.Dict Model.LimbDark Model.Poly Model.Basis Model.S2fft Model.Rotation Model.Solution Model.SolutionVector Model.Ylm Model.RvMap Model.Surface Model.StarryLightCurve Model.AutoDiff Model.LightCurveGrad Model.TransitGrad Model.StarryGrad.
From Verif Require Import Spec.LimbDarkSpec Spec.OccultSpec Spec.AutoDiffSpec Spec.StarryGradSpec.
From Verif Require Import Proof.AutoDiff Proof.LightCurveGrad Proof.LightCurveDeriv Proof.LightCurveTangent Proof.LightCurveGradFacts Proof.TransitGrad Proof.StarryGrad Proof.StarryGradFlux Proof.StarryGradDesign.
Import ListNotations.
Local Open Scope R_scope.

(** ** dictionaries of traced numbers *)
Definition entry_rel (s : R) (a : ijk * (R -> R)) (b : ijk * D) : Prop := fst a = fst b /\ tracks (snd a) s (snd b).
Definition dict_at (L : list (ijk * (R -> R))) (z : R) : list (ijk * R) := map (fun a => (fst a, snd a z)) L.
Definition tracks_dict (f : R -> list (ijk * R)) (s : R) (d : list (ijk * D)) : Prop := exists L, List.Forall2 (entry_rel s) L d /\ forall z, f z = dict_at L z.
Notation TD f s d := (tracks_dict f s d).
Section Dicts.
Variable s : R.
Lemma TD_ext f g d : (forall z, f z = g z) -> TD f s d -> TD g s d.
Proof. intros H (L & HF & E). exists L. split; [exact HF|]. intros z. now rewrite <- H. Qed.
Lemma TD_keys f d z : TD f s d -> keys (f z) = keys d.
Proof. intros (L & HF & E). rewrite E. unfold keys, dict_at. rewrite map_map. cbn [fst]. clear E. induction HF as [|a b L d [H _] HF IH]; [reflexivity|]. cbn. now rewrite H, IH. Qed.
Lemma TD_nil : TD (fun _ => []) s []. Proof. exists []. split; [constructor|reflexivity]. Qed.
Lemma TD_upd f d k h hd x0 x0d : TD f s d -> (forall g x, tracks g s x -> tracks (fun z => h z (g z)) s (hd x)) -> tracks x0 s x0d ->
  TD (fun z => dupd ijk_eqb k (h z) (x0 z) (f z)) s (dupd ijk_eqb k hd x0d d).
Proof.
  intros (L & HF & E) Hh H0. apply (TD_ext (fun z => dupd ijk_eqb k (h z) (x0 z) (dict_at L z))); [intros z; now rewrite E|]. clear E f.
  induction HF as [|[ka g] [kb x] L d [Hk Hg] HF IH].
  - exists [(k, fun z => h z (x0 z))]. split; [constructor; [|constructor]|reflexivity]. split; [reflexivity|]. cbn [snd]. now apply Hh.
  - cbn [fst snd] in Hk, Hg. subst kb. change (fun z => dupd ijk_eqb k (h z) (x0 z) (dict_at ((ka, g) :: L) z)) with (fun z => if ijk_eqb k ka then (ka, h z (g z)) :: dict_at L z else (ka, g z) :: dupd ijk_eqb k (h z) (x0 z) (dict_at L z)).
    cbn [dupd]. destruct (ijk_eqb k ka).
    + exists ((ka, fun z => h z (g z)) :: L). split; [constructor; [|exact HF]|reflexivity]. split; [reflexivity|]. cbn [snd]. now apply Hh.
    + destruct IH as (L' & HF' & E'). exists ((ka, g) :: L'). split; [constructor; [|exact HF']|]. { split; [reflexivity|exact Hg]. }
      intros z. rewrite E'. reflexivity.
Qed.
Lemma TD_add f d k g x : TD f s d -> tracks g s x -> TD (fun z => add_to k (g z) (f z)) s (add_to_d k x d).
Proof. intros Hf Hg. apply (TD_upd f d k (fun z v => v + g z) (fun v => dadd v x) (fun _ => 0) (cst 0) Hf); [|apply tracks_cst]. intros h y Hh. now apply tracks_add. Qed.
Lemma TD_set f d k g x : TD f s d -> tracks g s x -> TD (fun z => dset ijk_eqb k (g z) (f z)) s (dset ijk_eqb k x d).
Proof. intros Hf Hg. apply (TD_upd f d k (fun z _ => g z) (fun _ => x) g x Hf); [|exact Hg]. intros h y _. exact Hg. Qed.
Lemma TD_from_dense f d : TL f s d -> TD (fun z => from_dense_data (f z)) s (from_dense_data_d d).
Proof.
  intros H. unfold from_dense_data, from_dense_data_d.
  apply (TD_ext (fun z => fold_left (fun d i => dset ijk_eqb (n2ijk (Z.of_nat i)) (nth i (f z) 0) d) (seq 0 (length d)) [])); [intros z; now rewrite (TL_length s f d z H)|].
  assert (G : forall l acc accd, TD acc s accd -> TD (fun z => fold_left (fun d i => dset ijk_eqb (n2ijk (Z.of_nat i)) (nth i (f z) 0) d) l (acc z)) s (fold_left (fun d' i => dset ijk_eqb (n2ijk (Z.of_nat i)) (nth i d (cst 0)) d') l accd)).
  { induction l as [|i l IH]; intros acc accd Ha; [exact Ha|]. cbn [fold_left]. apply (IH (fun z => dset ijk_eqb (n2ijk (Z.of_nat i)) (nth i (f z) 0) (acc z))). apply TD_set; [exact Ha|now apply TL_nth]. }
  apply (G (seq 0 (length d)) (fun _ => [])). apply TD_nil.
Qed.
Lemma TD_mul_step k1 k2 f1 f2 v1 v2 acc accd : tracks f1 s v1 -> tracks f2 s v2 -> TD acc s accd -> TD (fun z => mul_step k1 (f1 z) k2 (f2 z) (acc z)) s (mul_step_d k1 v1 k2 v2 accd).
Proof.
  intros H1 H2 Ha. assert (Hm : tracks (fun z => f1 z * f2 z) s (dmul v1 v2)) by now apply tracks_mul. unfold mul_step, mul_step_d. destruct k1 as [[i1 j1] k1], k2 as [[i2 j2] k2]. cbv zeta.
  destruct (k1 + k2 =? 2)%Z; [|now apply TD_add].
  apply (TD_add (fun z => add_to (i1 + i2 + 2, j1 + j2, 0)%Z (- (f1 z * f2 z)) (add_to (i1 + i2, j1 + j2, 0)%Z (f1 z * f2 z) (acc z)))); [|now apply tracks_neg].
  apply (TD_add (fun z => add_to (i1 + i2, j1 + j2, 0)%Z (f1 z * f2 z) (acc z))); [|now apply tracks_neg]. now apply TD_add.
Qed.
(** loops over a dictionary *)
Lemma TD_fold (step : R -> list (ijk * R) -> ijk * R -> list (ijk * R)) stepd : (forall acc accd k g x, TD acc s accd -> tracks g s x -> TD (fun z => step z (acc z) (k, g z)) s (stepd accd (k, x))) ->
  forall f d acc accd, TD f s d -> TD acc s accd -> TD (fun z => fold_left (step z) (f z) (acc z)) s (fold_left stepd d accd).
Proof.
  intros Hs f d acc accd (L & HF & E) Ha. apply (TD_ext (fun z => fold_left (step z) (dict_at L z) (acc z))); [intros z; now rewrite E|]. clear E f. revert acc accd Ha.
  induction HF as [|[ka g] [kb x] L d [Hk Hg] HF IH]; intros acc accd Ha; [exact Ha|]. cbn [fst snd] in Hk, Hg. subst kb.
  change (TD (fun z => fold_left (step z) (dict_at L z) (step z (acc z) (ka, g z))) s (fold_left stepd d (stepd accd (ka, x)))). apply (IH (fun z => step z (acc z) (ka, g z))). now apply Hs.
Qed.
Lemma TD_mul f g u v : TD f s u -> TD g s v -> TD (fun z => mul_data (f z) (g z)) s (mul_data_d u v).
Proof.
  intros Hf Hg. unfold mul_data, mul_data_d.
  apply (TD_fold (fun z d a => fold_left (fun d b => mul_step (fst a) (snd a) (fst b) (snd b) d) (g z) d) (fun d a => fold_left (fun d b => mul_step_d (fst a) (snd a) (fst b) (snd b) d) v d)); [|exact Hf|apply TD_nil].
  intros acc accd k h x Ha Hh. cbn [fst snd].
  apply (TD_fold (fun z d b => mul_step k (h z) (fst b) (snd b) d) (fun d b => mul_step_d k x (fst b) (snd b) d)); [|exact Hg|exact Ha].
  intros acc' accd' k' h' x' Ha' Hh'. cbn [fst snd]. now apply TD_mul_step.
Qed.
End Dicts.
Definition tracks_pijk (s : R) (f : R -> pijk) (d : pijk_d) : Prop := TD (fun z => p_data (f z)) s (pd_data d) /\ forall z, p_degree (f z) = pd_degree d.
Notation RP s := (rel_res (tracks_pijk s)).
Notation RR s := (rel_res (fun f d => tracks f s d)).
Section Polys.
Variable s : R.
Lemma RP_make f d deg : TD f s d -> RP s (fun z => make_pijk (f z) deg) (make_pijk_d d deg).
Proof.
  intros H. apply (rel_ext _ (fun z => rbind (match deg with None => max_degree (keys d) | Some d => Ok d end) (fun dg => rbind (all_diagonal (keys d)) (fun b => Ok {| p_data := f z; p_degree := dg; p_diagonal := b |})))).
  { intros z. unfold make_pijk. now rewrite (TD_keys s f d z H). }
  unfold make_pijk_d. destruct (match deg with None => max_degree (keys d) | Some d => Ok d end) as [dg|e]; cbn [rbind]; [|apply rel_err].
  destruct (all_diagonal (keys d)) as [b|e]; cbn [rbind]; [|apply rel_err].
  apply (rel_ok (tracks_pijk s) (fun z => {| p_data := f z; p_degree := dg; p_diagonal := b |})). split; [exact H|reflexivity].
Qed.
Lemma RP_dense f d deg : TL f s d -> RP s (fun z => from_dense (f z) deg) (from_dense_d d deg).
Proof. intros H. apply (RP_make (fun z => from_dense_data (f z))). now apply TD_from_dense. Qed.
Lemma RP_mul f g u v : tracks_pijk s f u -> tracks_pijk s g v -> RP s (fun z => pijk_mul (f z) (g z)) (pijk_mul_d u v).
Proof. intros [Hf _] [Hg _]. apply (RP_make (fun z => mul_data (p_data (f z)) (p_data (g z)))). exact (TD_mul s (fun z => p_data (f z)) (fun z => p_data (g z)) _ _ Hf Hg). Qed.
Lemma tracks_pick (ns : list Z) L d n : List.Forall2 (entry_rel s) L d ->
  tracks (fun z => Rsum (map (fun iv : Z * R => if (fst iv =? n)%Z then snd iv else 0) (combine ns (map snd (dict_at L z))))) s
    (dsum (map (fun iv : Z * D => if (fst iv =? n)%Z then snd iv else cst 0) (combine ns (map snd d)))).
Proof.
  intros HF. revert ns. induction HF as [|[ka g] [kb x] L d [Hk Hg] HF IH]; intros ns; [destruct ns; apply tracks_cst|]. destruct ns as [|i ns]; [apply tracks_cst|].
  cbn [dict_at map snd combine fst Rsum dsum fold_right]. cbn [snd] in Hg.
  apply (tracks_add (fun z => if (i =? n)%Z then g z else 0)); [destruct (i =? n)%Z; [exact Hg|apply tracks_cst]|exact (IH ns)].
Qed.
Lemma RL_todense f d : tracks_pijk s f d -> rel_res (fun f d => tracks_list f s d) (fun z => todense (f z)) (todense_d d).
Proof.
  intros [(L & HF & E) Hd]. assert (EK : forall z, keys (p_data (f z)) = keys (pd_data d)) by (intros z; apply (TD_keys s (fun z => p_data (f z))); now exists L).
  unfold todense, todense_d, shape. destruct d as [dd dg]. cbn [pd_data pd_degree] in *.
  apply (rel_ext _ (fun z => match dict_at L z with [] => Err ValueError | _ => rbind (indices (keys dd)) (fun ns => Ok (map (fun n => Rsum (map (fun iv => if (fst iv =? Z.of_nat n)%Z then snd iv else 0) (combine ns (map snd (dict_at L z))))) (seq 0 (Z.to_nat ((dg + 1) ^ 2))))) end)).
  { intros z. rewrite <- (EK z), <- (Hd z), (E z). reflexivity. }
  destruct HF as [|a b L d Hab HF]; [apply rel_err|]. cbn [dict_at map]. destruct (indices (keys (b :: d))) as [ns|e]; cbn [rbind]; [|apply rel_err].
  apply (rel_ok (fun f d => tracks_list f s d) (fun z => map (fun n => Rsum (map (fun iv => if (fst iv =? Z.of_nat n)%Z then snd iv else 0) (combine ns (snd a z :: map snd (dict_at L z))))) (seq 0 (Z.to_nat ((dg + 1) ^ 2))))).
  apply (TL_map s (seq 0 (Z.to_nat ((dg + 1) ^ 2))) (fun n z => Rsum (map (fun iv : Z * R => if (fst iv =? Z.of_nat n)%Z then snd iv else 0) (combine ns (snd a z :: map snd (dict_at L z)))))).
  intros n. apply (tracks_pick ns (a :: L) (b :: d) (Z.of_nat n)). now constructor.
Qed.
Lemma RR_dotv f g a b : TL f s a -> TL g s b -> RR s (fun z => dot_vec (f z) (g z)) (dot_vec_d a b).
Proof.
  intros Hf Hg. unfold dot_vec, dot_vec_d. apply (rel_ext _ (fun z => if Nat.eqb (length a) (length b) then Ok (dotp (f z) (g z)) else Err TypeError)).
  - intros z. now rewrite (TL_length s f a z Hf), (TL_length s g b z Hg).
  - destruct (Nat.eqb _ _); [|apply rel_err]. apply (rel_ok (fun f d => tracks f s d) (fun z => dotp (f z) (g z))). now apply TL_dot.
Qed.
Lemma RR_pdot f d g b : tracks_pijk s f d -> TL g s b -> RR s (fun z => pijk_dot (f z) (g z)) (pijk_dot_d d b).
Proof.
  intros Hf Hg. apply (rel_bind (fun f d => tracks_list f s d) (fun f d => tracks f s d) (fun z => todense (f z)) _ (fun z pd => dot_vec pd (g z))); [now apply RL_todense|]. intros h x _ Hh. now apply RR_dotv.
Qed.
Lemma TL_A1 deg f d : TL f s d -> TL (fun z => A1_mul deg (f z)) s (A1_mul_d deg d).
Proof.
  intros H. apply (TL_map s (seq 0 ((deg + 1) * (deg + 1))) (fun r z => bigsum ((deg + 1) * (deg + 1)) (fun n => A1 (Z.of_nat deg) (Z.of_nat r) (Z.of_nat n) * nth n (f z) 0))). intros r.
  apply (tracks_bigsum (fun n z => A1 (Z.of_nat deg) (Z.of_nat r) (Z.of_nat n) * nth n (f z) 0)). intros n _. apply (tracks_mul (fun _ => A1 (Z.of_nat deg) (Z.of_nat r) (Z.of_nat n)) (fun z => nth n (f z) 0)); [apply tracks_cst|now apply TL_nth].
Qed.
End Polys.
