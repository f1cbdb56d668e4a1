(** get_R over any history of calls. *)
From Coq Require Import Reals Lra Lia ZArith List Bool Arith.
From Coquelicot Require Import Coquelicot.
From Verif Require Import Base.RealAux Base.Dict Model.Poly Model.S2fft Model.Rotation Model.MpBasis Model.MpRotation Spec.RotationSpec Spec.MpCacheSpec Proof.MpRotationProof Proof.MpRotationDot.
Import ListNotations.
Open Scope R_scope.

Definition call_key (q : R_call) : option R_key :=
  match rc_obl q, rc_inc q with
  | Some o, Some i => match rc_name q with R_obl => Some (Kobl o) | R_inc => Some (Kinc i o) | _ => None end
  | _, _ => match rc_name q with R_px => Some Kpx | R_mx => Some Kmx | _ => None end
  end.
Lemma key_eqb a b : R_key_eqb a b = true -> a = b.
Proof.
  destruct a, b; cbn; try discriminate; try reflexivity.
  - intros H. apply Reqb_true in H. now subst.
  - intros H. apply andb_true_iff in H. destruct H as [H1 H2]. apply Reqb_true in H1, H2. now subst.
Qed.
Lemma key_refl a : R_key_eqb a a = true.
Proof. destruct a; cbn; rewrite ?(fun x => proj2 (Reqb_true x x) eq_refl); reflexivity. Qed.
Section Hist.
Variable Uinv : nat -> nat -> nat -> Complex.C.
Variable tol : R.
Lemma get_R_key prec c name l obl inc : mp_get_R Uinv tol prec c name l obl inc =
  match call_key {| rc_prec := prec; rc_name := name; rc_l := l; rc_obl := obl; rc_inc := inc |} with
  | Some k => get_key Uinv tol prec c l k
  | None => (Ok match obl, inc with Some _, Some _ => NoValue | _, _ => WholeDict end, c)
  end.
Proof. unfold mp_get_R, call_key. cbn. destruct obl, inc, name; reflexivity. Qed.
Lemma build_rotation q k : call_key q = Some k -> exists u t, call_rotation q = Some (u, t) /\ forall prec, R_build Uinv tol prec k = mp_R Uinv tol prec u t.
Proof.
  unfold call_key, call_rotation. destruct (rc_name q), (rc_obl q), (rc_inc q); intros H; try discriminate; injection H as <-; eexists; eexists; split; reflexivity.
Qed.
(** what the cache holds after a history: for each key the build at the precision of the first successful call *)
Definition serves (h : list R_call) (c : R_cache) : Prop := forall l k,
  match R_find c l k with
  | Some m => exists q, In q h /\ rc_l q = l /\ call_key q = Some k /\ R_build Uinv tol (rc_prec q) k = Ok m
  | None => forall q, In q h -> rc_l q = l -> call_key q = Some k -> forall m, R_build Uinv tol (rc_prec q) k <> Ok m
  end.
Lemma serves_step h c q : serves h c -> let '(a, c') := mp_get_R Uinv tol (rc_prec q) c (rc_name q) (rc_l q) (rc_obl q) (rc_inc q) in
  serves (h ++ [q]) c' /\ match call_key q with
    | None => a = Ok match rc_obl q, rc_inc q with Some _, Some _ => NoValue | _, _ => WholeDict end
    | Some k => (exists q' m, In q' (h ++ [q]) /\ rc_l q' = rc_l q /\ call_key q' = Some k /\ R_build Uinv tol (rc_prec q') k = Ok m /\ a = Ok (Matrices m)) \/
                (exists e, R_build Uinv tol (rc_prec q) k = Err e /\ a = Err e)
    end.
Proof.
  intros H. rewrite get_R_key. replace {| rc_prec := rc_prec q; rc_name := rc_name q; rc_l := rc_l q; rc_obl := rc_obl q; rc_inc := rc_inc q |} with q by (destruct q; reflexivity).
  destruct (call_key q) as [k|] eqn:Ek.
  - unfold get_key. pose proof (H (rc_l q) k) as Hk. destruct (R_find c (rc_l q) k) as [m|] eqn:Ef.
    + split.
      * intros l k'. specialize (H l k'). destruct (R_find c l k') as [m'|] eqn:Ef'.
        -- destruct H as (q' & I & R). exists q'. split; [apply in_or_app; now left|exact R].
        -- intros q' I E1 E2. apply in_app_or in I. destruct I as [I|[<-|[]]]; [now apply H|]. subst l. rewrite Ek in E2. injection E2 as <-. congruence.
      * left. destruct Hk as (q' & I & E1 & E2 & E3). exists q', m. split; [apply in_or_app; now left|]. split; [exact E1|split; [exact E2|split; [exact E3|reflexivity]]].
    + destruct (R_build Uinv tol (rc_prec q) k) as [m|e] eqn:Eb.
      * split.
        -- intros l k'. specialize (H l k'). unfold R_find in *. cbn [find]. destruct ((rc_l q =? l)%nat && R_key_eqb k k')%bool eqn:E.
           ++ apply andb_true_iff in E. destruct E as [E1 E2]. apply Nat.eqb_eq in E1. apply key_eqb in E2. subst. cbn [option_map snd]. exists q. split; [apply in_or_app; right; now left|]. split; [reflexivity|split; [exact Ek|exact Eb]].
           ++ destruct (option_map snd (find _ c)) as [m'|] eqn:Ef'.
              ** destruct H as (q' & I & R). exists q'. split; [apply in_or_app; now left|exact R].
              ** intros q' I E1 E2. apply in_app_or in I. destruct I as [I|[<-|[]]]; [now apply H|]. rewrite Ek in E2. injection E2 as <-. subst l. rewrite Nat.eqb_refl, key_refl in E. discriminate.
        -- left. exists q, m. split; [apply in_or_app; right; now left|]. split; [reflexivity|split; [exact Ek|split; [exact Eb|reflexivity]]].
      * split.
        -- intros l k'. specialize (H l k'). destruct (R_find c l k') as [m'|] eqn:Ef'.
           ++ destruct H as (q' & I & R). exists q'. split; [apply in_or_app; now left|exact R].
           ++ intros q' I E1 E2 m. apply in_app_or in I. destruct I as [I|[<-|[]]]; [now apply H|]. rewrite Ek in E2. injection E2 as <-. rewrite Eb. discriminate.
        -- right. exists e. split; reflexivity.
  - split; [|reflexivity]. intros l k'. specialize (H l k'). destruct (R_find c l k') as [m'|] eqn:Ef'.
    + destruct H as (q' & I & R). exists q'. split; [apply in_or_app; now left|exact R].
    + intros q' I E1 E2. apply in_app_or in I. destruct I as [I|[<-|[]]]; [now apply H|]. congruence.
Qed.
Lemma run_ok h2 : forall h1 c, serves h1 c -> forall n q, nth_error h2 n = Some q -> exists a, nth_error (run_calls Uinv tol c h2) n = Some a /\ answer_ok Uinv tol (h1 ++ firstn n h2) q a.
Proof.
  induction h2 as [|q0 h2 IH]; intros h1 c Hc n q Hq; [destruct n; discriminate|].
  cbn [run_calls]. pose proof (serves_step h1 c q0 Hc) as HS. destruct (mp_get_R _ _ _ _ _ _ _ _) as [a c'].
  destruct HS as [HS HA]. destruct n as [|n].
  - injection Hq as <-. exists a. split; [reflexivity|]. cbn [firstn]. rewrite app_nil_r. unfold answer_ok. destruct (call_key q0) as [k|] eqn:Ek.
    + destruct (build_rotation q0 k Ek) as (u & t & Er & Eb). rewrite Er. destruct HA as [(q' & m & I & E1 & E2 & E3 & E4)|(e & E1 & E2)].
      * left. exists q', m. destruct (build_rotation q' k E2) as (u' & t' & Er' & Eb').
        assert (X : (u', t') = (u, t)). { clear - Ek E2 Er Er'. unfold call_key, call_rotation in *. destruct (rc_name q0), (rc_obl q0), (rc_inc q0); try discriminate; destruct (rc_name q'), (rc_obl q'), (rc_inc q'); try discriminate; congruence. }
        injection X as -> ->. rewrite Eb in E3. auto.
      * right. exists e. rewrite Eb in E1. auto.
    + assert (call_rotation q0 = None) as ->. { unfold call_key, call_rotation in *. destruct (rc_name q0), (rc_obl q0), (rc_inc q0); try discriminate; reflexivity. } exact HA.
  - cbn [nth_error] in *. destruct (IH (h1 ++ [q0]) c' HS n q Hq) as (a' & H1 & H2). exists a'. split; [exact H1|]. cbn [firstn]. replace (h1 ++ q0 :: firstn n h2) with ((h1 ++ [q0]) ++ firstn n h2) by (now rewrite <- app_assoc). exact H2.
Qed.
Lemma run_empty h n q : nth_error h n = Some q -> exists a, nth_error (run_calls Uinv tol [] h) n = Some a /\ answer_ok Uinv tol (firstn n h) q a.
Proof. intros H. apply (run_ok h [] []); [|exact H]. intros l k. cbn. intros q' []. Qed.
End Hist.
