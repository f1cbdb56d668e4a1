(** Proofs about starry/orbit.py, starry/system_observable.py and the system-level observables. *)
From Coq Require Import Reals Lra Lia ZArith List Bool Arith Psatz.
From Verif Require Import Base.RealAux Base.Dict Model.Keplerian Model.Basis Model.Solution Model.Ylm Model.RvMap Model.Surface Model.StarryLightCurve Model.SurfaceSystem
  Spec.RotationSpec Spec.DiskSpec Spec.BasisSpec Spec.YlmSpec Spec.SurfaceSpec Spec.SystemSpec Proof.YlmProof Proof.YlmMore Proof.YlmFacts Proof.SurfaceProof Proof.StarryProof.
From Verif Require Model.Stack Model.LimbDark.
Import ListNotations.
Open Scope R_scope.

Lemma mapM_ok {A B} (f : A -> result B) l r : Stack.mapM f l = Ok r -> length r = length l /\ forall i a, nth_error l i = Some a -> exists b, nth_error r i = Some b /\ f a = Ok b.
Proof.
  revert r. induction l as [|a l IH]; intros r H; cbn in H.
  - injection H as <-. split; [reflexivity|]. intros [|i] a Ha; discriminate.
  - destruct (f a) as [b|] eqn:E; cbn [rbind] in H; [|discriminate]. destruct (Stack.mapM f l) as [bs|] eqn:E2; cbn [rbind] in H; [|discriminate]. injection H as <-.
    destruct (IH bs eq_refl) as [L N]. split; [cbn; congruence|]. intros [|i] a' Ha; cbn in Ha; [injection Ha as <-; exists b; auto|]. apply N, Ha.
Qed.
Lemma mapM_all {A B} (f : A -> result B) (g : A -> B) l : (forall a, In a l -> f a = Ok (g a)) -> Stack.mapM f l = Ok (map g l).
Proof. induction l as [|a l IH]; intros H; [reflexivity|]. cbn. rewrite H by (now left). cbn [rbind]. rewrite IH by (intros; apply H; now right). reflexivity. Qed.

Section Build.
Variable G : R.
Notation sbuild1 := (sbuild1 G).
Notation ss_add_all := (ss_add_all G).
Lemma build_cons c b s l : build_sbodies G c ((b, s) :: l) =
  rbind (sbuild1 c b) (fun o => rbind (build_sbodies G c l) (fun r => Ok (o :: fst r, chosen b s :: snd r))).
Proof. destruct b as [b own|o]; cbn [build_sbodies SystemSpec.sbuild1 chosen]. - destruct (rbind (make_body b) _); [|reflexivity]. cbn [rbind]. destruct s; reflexivity. - cbn [rbind]. destruct s; reflexivity. Qed.
Lemma build_sapp c l1 l2 : build_sbodies G c (l1 ++ l2) =
  rbind (build_sbodies G c l1) (fun a => rbind (build_sbodies G c l2) (fun b => Ok (fst a ++ fst b, snd a ++ snd b))).
Proof.
  induction l1 as [|[b s] l1 IH].
  - cbn. destruct (build_sbodies G c l2) as [[? ?]|]; reflexivity.
  - cbn [app]. rewrite !build_cons. destruct (sbuild1 c b) as [o|]; [|reflexivity]. cbn [rbind]. rewrite IH. destruct (build_sbodies G c l1) as [a|]; [|reflexivity]. cbn [rbind].
    destruct (build_sbodies G c l2); reflexivity.
Qed.
Lemma build_again c os ss : length os = length ss -> build_sbodies G c (map (fun p => (SOrbital (fst p), snd p)) (combine os ss)) = Ok (os, ss).
Proof.
  revert ss. induction os as [|o os IH]; intros [|s ss] H; try discriminate; [reflexivity|]. cbn [combine map fst snd]. rewrite build_cons. cbn [SystemSpec.sbuild1 rbind]. rewrite IH by (injection H; auto). cbn [rbind fst snd].
  destruct s; reflexivity.
Qed.
Lemma build_ok c l r : build_sbodies G c l = Ok r -> length (fst r) = length l /\ length (snd r) = length l /\
  forall i b s, nth_error l i = Some (b, s) -> exists o, nth_error (fst r) i = Some o /\ sbuild1 c b = Ok o /\ nth_error (snd r) i = Some (chosen b s).
Proof.
  revert r. induction l as [|[b s] l IH]; intros r H.
  - injection H as <-. split; [reflexivity|split; [reflexivity|]]. intros [|i] b s Hi; discriminate.
  - rewrite build_cons in H. destruct (sbuild1 c b) as [o|] eqn:E; cbn [rbind] in H; [|discriminate]. destruct (build_sbodies G c l) as [r'|] eqn:E2; cbn [rbind] in H; [|discriminate]. injection H as <-.
    destruct (IH r' eq_refl) as (L1 & L2 & N). cbn [fst snd length]. split; [congruence|split; [congruence|]]. intros [|i] b' s' Hi; cbn in Hi.
    + injection Hi as <- <-. exists o. auto.
    + apply N, Hi.
Qed.
Lemma add_spec sys b s : length (ss_bodies sys) = length (ss_surfaces sys) -> ss_add_body G sys b s =
  rbind (sbuild1 (ss_central sys) b) (fun o => Ok {| ss_central := ss_central sys; ss_surface := ss_surface sys; ss_bodies := ss_bodies sys ++ [o]; ss_surfaces := ss_surfaces sys ++ [chosen b s] |}).
Proof.
  intros L. unfold ss_add_body, make_ssystem. cbn [rbind]. rewrite build_sapp, (build_again _ _ _ L). cbn [rbind]. rewrite build_cons. destruct (sbuild1 (ss_central sys) b) as [o|]; [|reflexivity]. cbn [rbind fst snd build_sbodies].
  destruct s as [s|], b as [b own|o']; cbn [chosen]; try reflexivity. destruct own; reflexivity.
Qed.
Lemma add_all_ok l : forall sys, length (ss_bodies sys) = length (ss_surfaces sys) -> ss_add_all sys l =
  rbind (build_sbodies G (ss_central sys) l) (fun r => Ok {| ss_central := ss_central sys; ss_surface := ss_surface sys; ss_bodies := ss_bodies sys ++ fst r; ss_surfaces := ss_surfaces sys ++ snd r |}).
Proof.
  induction l as [|[b s] l IH]; intros sys L.
  - cbn. rewrite !app_nil_r. destruct sys; reflexivity.
  - cbn [SystemSpec.ss_add_all]. rewrite add_spec by exact L. rewrite build_cons. destruct (sbuild1 (ss_central sys) b) as [o|]; [|reflexivity]. cbn [rbind]. rewrite IH by (cbn; rewrite !app_length; cbn; lia). cbn [ss_central ss_surface ss_bodies ss_surfaces].
    destruct (build_sbodies G (ss_central sys) l) as [r|]; [|reflexivity]. cbn [rbind fst snd]. rewrite <- !app_assoc. reflexivity.
Qed.
Lemma one_by_one c cs l : rbind (make_ssystem G c cs []) (fun sys => ss_add_all sys l) = make_ssystem G c cs l.
Proof.
  unfold make_ssystem. destruct (match c with Some c0 => Ok c0 | None => _ end) as [c'|]; [|reflexivity]. cbn [rbind]. destruct (match cs with Some s => Ok s | None => _ end) as [cs'|]; [|reflexivity]. cbn [rbind build_sbodies].
  rewrite add_all_ok by reflexivity. reflexivity.
Qed.
Lemma make_ssystem_ok c cs l sys : make_ssystem G c cs l = Ok sys ->
  length (ss_bodies sys) = length l /\ length (ss_surfaces sys) = length l /\
  (forall c', c = Some c' -> ss_central sys = c') /\ (forall s, cs = Some s -> ss_surface sys = s) /\
  forall i b s, nth_error l i = Some (b, s) -> exists o, nth_error (ss_bodies sys) i = Some o /\ sbuild1 (ss_central sys) b = Ok o /\ nth_error (ss_surfaces sys) i = Some (chosen b s).
Proof.
  unfold make_ssystem. intros H. destruct (match c with Some c0 => Ok c0 | None => _ end) as [c'|] eqn:E1; cbn [rbind] in H; [|discriminate].
  destruct (match cs with Some s => Ok s | None => _ end) as [cs'|] eqn:E2; cbn [rbind] in H; [|discriminate].
  destruct (build_sbodies G c' l) as [r|] eqn:E3; cbn [rbind] in H; [|discriminate]. injection H as <-. cbn. destruct (build_ok _ _ _ E3) as (A & B & C).
  split; [exact A|split; [exact B|split; [|split; [|exact C]]]].
  - intros c0 ->. injection E1 as ->. reflexivity.
  - intros s0 ->. injection E2 as ->. reflexivity.
Qed.
End Build.

Section Obs.
Variable au : R.
Variable kep : R -> R -> R * R.
Variable obs : surface -> option R -> option R -> option R -> option R -> option R -> result R.
Lemma observable_ok sys t r : length (ss_bodies sys) = length (ss_surfaces sys) -> ss_bodies sys <> [] -> system_observable au kep obs sys t = Ok r ->
  exists f0 fs bs, r = (Rsum fs - INR (length fs - 1) * f0) :: bs /\
    obs (ss_surface sys) None None None None (rotational_phase (ss_surface sys) t) = Ok f0 /\
    length fs = length (ss_bodies sys) /\ length bs = length (ss_bodies sys) /\
    (forall i o, nth_error (ss_bodies sys) i = Some o -> exists f, nth_error fs i = Some f /\ central_obs au kep obs sys (rotational_phase (ss_surface sys) t) t o = Ok f) /\
    (forall i o s, nth_error (ss_bodies sys) i = Some o -> nth_error (ss_surfaces sys) i = Some s -> exists f, nth_error bs i = Some f /\ body_obs au kep obs sys t (o, s) = Ok f).
Proof.
  intros L N H. unfold system_observable in H. destruct (obs (ss_surface sys) None None None None _) as [f0|] eqn:E0; cbn [rbind] in H; [|discriminate].
  destruct (ss_bodies sys) as [|o0 os] eqn:EB; [contradiction|]. set (bl := o0 :: os) in *.
  destruct (Stack.mapM (central_obs au kep obs sys _ t) bl) as [fs|] eqn:E1; cbn [rbind] in H; [|discriminate].
  destruct (Stack.mapM (body_obs au kep obs sys t) _) as [bs|] eqn:E2; cbn [rbind] in H; [|discriminate]. injection H as <-.
  destruct (mapM_ok _ _ _ E1) as [L1 N1]. destruct (mapM_ok _ _ _ E2) as [L2 N2]. rewrite combine_length, <- L, Nat.min_id in L2.
  exists f0, fs, bs. split; [|split; [reflexivity|split; [exact L1|split; [exact L2|split; [exact N1|]]]]].
  - rewrite L1. change (S (length os)) with (length bl). destruct (1 <? length bl)%nat eqn:E.
    + replace (length os - 0)%nat with (length bl - 1)%nat by reflexivity. cbn [app]. f_equal. ring.
    + apply Nat.ltb_ge in E. unfold bl in *. destruct os; [|cbn in E; lia]. destruct fs as [|f [|? ?]]; try discriminate. cbn. f_equal. ring.
  - intros i o s Ho Hs. apply N2. revert i L Ho Hs. generalize bl (ss_surfaces sys). intros a. induction a as [|x a IH]; intros [|y b] i L Ho Hs; try (destruct i; discriminate); try discriminate.
    destruct i; cbn in *; [congruence|]. apply IH; auto.
Qed.
Lemma observable_empty sys t : ss_bodies sys = [] -> system_observable au kep obs sys t = rbind (obs (ss_surface sys) None None None None (rotational_phase (ss_surface sys) t)) (fun f => Ok [f]).
Proof. intros H. unfold system_observable. rewrite H. reflexivity. Qed.
(** no body in front of the star: the star is seen as if it were alone *)
Lemma observable_unocculted sys t r f0 : length (ss_bodies sys) = length (ss_surfaces sys) -> ss_bodies sys <> [] -> system_observable au kep obs sys t = Ok r ->
  obs (ss_surface sys) None None None None (rotational_phase (ss_surface sys) t) = Ok f0 ->
  (forall o, In o (ss_bodies sys) -> central_obs au kep obs sys (rotational_phase (ss_surface sys) t) t o = Ok f0) -> exists bs, r = f0 :: bs /\ length bs = length (ss_bodies sys).
Proof.
  intros L N H H0 Ha. destruct (observable_ok sys t r L N H) as (f0' & fs & bs & -> & E0 & Lf & Lb & Nf & _). rewrite H0 in E0. injection E0 as <-. exists bs. split; [|exact Lb]. f_equal.
  assert (fs = repeat f0 (length fs)).
  { apply (nth_ext _ _ f0 f0); [now rewrite repeat_length|]. intros n Hn. rewrite nth_repeat. destruct (nth_error (ss_bodies sys) n) as [o|] eqn:Eo.
    - destruct (Nf n o Eo) as (f & Ef & Eq). rewrite Ha in Eq by (apply (nth_error_In _ _ Eo)). injection Eq as <-. apply nth_error_nth, Ef.
    - apply nth_error_None in Eo. lia. }
  assert (S : forall n, Rsum (repeat f0 n) = INR n * f0). { intros n. induction n; [cbn; ring|]. rewrite S_INR. cbn [repeat Rsum fold_right]. fold (Rsum (repeat f0 n)). rewrite IHn. ring. }
  rewrite H1 at 1. rewrite S. assert (length fs <> 0)%nat by (rewrite Lf; destruct (ss_bodies sys); [contradiction|discriminate]). rewrite minus_INR by lia. cbn [INR]. ring.
Qed.
End Obs.
