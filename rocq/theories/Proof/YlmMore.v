(** Proofs about Ylm.from_limb_darkening and the product of expansions. *)
From Coq Require Import Reals Lra Lia ZArith List Bool Arith Psatz.
From Coquelicot Require Import Coquelicot.
From Verif Require Import Base.RealAux Base.Dict Model.Poly Model.Basis Model.Solution Model.Wigner3j Model.Ylm
  Spec.PolySpec Spec.BasisSpec Spec.HarmonicSpec Spec.RotationSpec Spec.DiskSpec Spec.Wigner3jSpec Spec.YlmSpec
  Proof.PolyProof Proof.PolyUnique Proof.PolyMatrix Proof.BasisProof Proof.HarmonicProof Proof.A1Inv Proof.DiskProof Proof.RTProof Proof.Wigner3jProof Proof.Wigner3jMain Proof.YlmProof.
Import ListNotations.
Open Scope R_scope.
Local Notation Forall := List.Forall.

Lemma disk_ext_in f g : (forall x y, in_disk x y -> f x y = g x y) -> disk_integral f = disk_integral g.
Proof.
  intros H. unfold disk_integral. apply RInt_ext. intros phi _. apply RInt_ext. intros rho. rewrite Rmin_left, Rmax_right by lra. intros Hr.
  rewrite H; [reflexivity|]. unfold in_disk. replace ((rho * cos phi) ^ 2 + (rho * sin phi) ^ 2) with (rho ^ 2 * (Rsqr (sin phi) + Rsqr (cos phi))) by (unfold Rsqr; ring).
  rewrite sin2_cos2. nra.
Qed.
Lemma nth_map_seq (f : nat -> R) N n : (n < N)%nat -> nth n (map f (seq 0 N)) 0 = f n.
Proof. intros H. rewrite (nth_indep _ 0 (f 0%nat)) by (rewrite map_length, seq_length; exact H). rewrite map_nth, seq_nth by exact H. reflexivity. Qed.
Lemma map_at_ext L a b p : (forall n, (n < ncoef L)%nat -> nth n a 0 = nth n b 0) -> map_at L a p = map_at L b p.
Proof. intros H. destruct p as [[x y] z]. unfold map_at. rewrite !harmonic_flat. apply bigsum_ext. intros n Hn. rewrite H by exact Hn. reflexivity. Qed.

Section LD.
Variable inv : nat -> matrix.
Variable u : list R.
Let D := length u.
Let N := ((D + 1) * (D + 1))%nat.
Hypothesis Hinv : forall r c, (r < N)%nat -> (c < N)%nat ->
  bigsum N (fun k => A1 (Z.of_nat D) (Z.of_nat r) (Z.of_nat k) * inv D (Z.of_nat k) (Z.of_nat c)) = if Nat.eqb r c then 1 else 0.
Lemma from_ld_ok : exists w, ylm_from_limb_darkening inv u = Ok w /\ valid_coeffs (y_data w) /\ y_deg w = Z.of_nat D /\
  forall x y z, on_sphere x y z -> 2 / sqrt PI * coeffs_value (y_data w) (x, y, z) =
     (1 - bigsum D (fun n => nth n u 0 * (1 - z) ^ (S n))) / disk_integral (fun x y => 1 - bigsum D (fun n => nth n u 0 * (1 - zdisk x y) ^ (S n))).
Proof.
  unfold ylm_from_limb_darkening. fold D. fold N.
  set (pu := map (fun n => limb_dark_vector u (Z.of_nat n)) (seq 0 N)).
  set (yu := map _ (seq 0 N)).
  assert (Lp : length pu = N) by (unfold pu; rewrite map_length, seq_length; reflexivity).
  assert (Ly : length yu = N) by (unfold yu; rewrite map_length, seq_length; reflexivity).
  assert (HN : (0 < N)%nat) by (unfold N; nia).
  assert (Np : pu <> []) by (intros E; rewrite E in Lp; cbn in Lp; lia).
  assert (Ny : yu <> []) by (intros E; rewrite E in Ly; cbn in Ly; lia).
  destruct (from_dense_todense_ylm yu Ny) as (v & Ev & Wv & Dv & Tv & _). rewrite Ev. cbn [rbind].
  assert (SL : Nat.sqrt (length yu - 1) = D) by (rewrite Ly; apply Nat.sqrt_unique; unfold N; nia). rewrite SL in Dv, Tv.
  replace (ncoef D - length yu)%nat with 0%nat in Tv by (rewrite Ly; unfold ncoef, N; lia). cbn [repeat] in Tv. rewrite app_nil_r in Tv.
  destruct (from_dense_ok pu (Some (Z.of_nat D)) (or_introl Np)) as (p & Ep & _ & Dp & _). specialize (Dp _ eq_refl). rewrite Ep. cbn [rbind].
  destruct (from_dense_todense pu _ p Np Ep) as (pd & Epd & Lpd & Npd). rewrite Epd. cbn [rbind]. eexists. split; [reflexivity|].
  cbn [ylm_scale y_data y_deg].
  assert (LPD : length pd = N) by (rewrite Lpd, Dp; unfold N; nia).
  split; [|split; [exact Dv|]].
  { pose proof Wv as ((Hn & Hvv) & _). 
    exact (eq_ind_r (fun ks => NoDup ks /\ (forall k, In k ks -> valid_lm k)) (conj Hn Hvv) (keys_map_val (fun x => x * (1 / bigsum N (fun n => nth n pd 0 * nth n (rT D) 0))) (y_data v))). }
  intros x y z Hs. rewrite value_map. rewrite <- (todense_value v (x, y, z) Wv).
  assert (EF : bigsum N (fun n => nth n pd 0 * nth n (rT D) 0) = disk_integral (fun x y => 1 - bigsum D (fun n => nth n u 0 * (1 - zdisk x y) ^ (S n)))).
  { rewrite (bigsum_ext _ _ (fun n => limb_dark_vector u (Z.of_nat n) * nth n (rT D) 0)).
    2:{ intros n Hn. rewrite Npd by lia. unfold pu. rewrite nth_map_seq by exact Hn. reflexivity. }
    unfold N. rewrite (rT_dot D (fun n => limb_dark_vector u (Z.of_nat n))). apply disk_ext_in. intros a b Hd.
    apply limb_dark_eval. apply GreenProof.zdisk_sphere, Hd. }
  rewrite EF. set (F := disk_integral _). transitivity (2 / sqrt PI * map_at (deg_nat v) (ylm_todense v) (x, y, z) / F); [unfold Rdiv; ring|].
  f_equal. replace (deg_nat v) with D by (unfold deg_nat; lia). rewrite Tv. unfold map_at. rewrite <- A1_eval by exact Hs.
  transitivity (dense_eval D (fun j => limb_dark_vector u (Z.of_nat j)) x y z); [|exact (limb_dark_eval u x y z Hs)]. rewrite !dense_eval_flat. apply bigsum_ext. intros r Hr. f_equal.
  fold N in Hr. fold N.
  transitivity (bigsum N (fun n => bigsum N (fun k => A1 (Z.of_nat D) (Z.of_nat r) (Z.of_nat n) * inv D (Z.of_nat n) (Z.of_nat k) * nth k pu 0))).
  { apply bigsum_ext. intros n Hn. unfold yu. rewrite (nth_map_seq (fun n => bigsum N (fun k => inv D (Z.of_nat n) (Z.of_nat k) * nth k pu 0))) by exact Hn.
    rewrite <- bigsum_scal. apply bigsum_ext. intros. ring. }
  rewrite bigsum_swap. rewrite (bigsum_single N r).
  - rewrite (bigsum_ext _ _ (fun n => nth r pu 0 * (A1 (Z.of_nat D) (Z.of_nat r) (Z.of_nat n) * inv D (Z.of_nat n) (Z.of_nat r)))) by (intros; ring).
    rewrite bigsum_scal, Hinv, Nat.eqb_refl by assumption. unfold pu. rewrite nth_map_seq by exact Hr. ring.
  - exact Hr.
  - intros k Hk Hne. rewrite (bigsum_ext _ _ (fun n => nth k pu 0 * (A1 (Z.of_nat D) (Z.of_nat r) (Z.of_nat n) * inv D (Z.of_nat n) (Z.of_nat k)))) by (intros; ring).
    rewrite bigsum_scal, Hinv by assumption. rewrite (proj2 (Nat.eqb_neq r k)) by auto. ring.
Qed.
End LD.
(** A1(D) has a right inverse *)
Lemma finite_choice (P : nat -> (nat -> R) -> Prop) N : (forall c, (c < N)%nat -> exists d, P c d) -> exists f : nat -> nat -> R, forall c, (c < N)%nat -> P c (f c).
Proof.
  induction N as [|N IH]; intros H; [exists (fun _ _ => 0); intros; lia|]. destruct IH as [f Hf]; [intros; apply H; lia|]. destruct (H N ltac:(lia)) as [d Hd].
  exists (fun c => if Nat.eqb c N then d else f c). intros c Hc. destruct (Nat.eqb_spec c N) as [->|Hne]; [exact Hd|apply Hf; lia].
Qed.
Lemma A1_has_inverse D : let N := ((D + 1) * (D + 1))%nat in exists inv : matrix, forall r c, (r < N)%nat -> (c < N)%nat ->
  bigsum N (fun k => A1 (Z.of_nat D) (Z.of_nat r) (Z.of_nat k) * inv (Z.of_nat k) (Z.of_nat c)) = if Nat.eqb r c then 1 else 0.
Proof.
  intros N. destruct (finite_choice (fun c d => forall r, (r < N)%nat -> bigsum N (fun k => A1 (Z.of_nat D) (Z.of_nat r) (Z.of_nat k) * d k) = if Nat.eqb r c then 1 else 0) N) as [f Hf].
  { intros c _. destruct (A1_invertible D (fun r => if Nat.eqb r c then 1 else 0)) as (d & Hd & _). exists d. exact Hd. }
  exists (fun k c => f (Z.to_nat c) (Z.to_nat k)). intros r c Hr Hc. rewrite <- (Hf c Hc r Hr). apply bigsum_ext. intros k _. rewrite !Nat2Z.id. reflexivity.
Qed.

(** ** product with a constant map *)
Lemma zrange_one a : zrange a (a + 1) = [a].
Proof. unfold zrange. replace (Z.to_nat (a + 1 - a)) with 1%nat by lia. cbn. f_equal. lia. Qed.
Definition mul_factor (l : Z) (a : R) : R := sign_pow l * sqrt (IZR (2 * l + 1)) * a / sqrt (4 * PI).
Lemma sign_parity n : sign_pow n = parity_sign n. Proof. reflexivity. Qed.
Lemma sign_sq n : sign_pow n * sign_pow n = 1. Proof. unfold sign_pow. destruct (Z.even n); ring. Qed.
Lemma sign_add a b : sign_pow (a + b) = sign_pow a * sign_pow b.
Proof. unfold sign_pow. rewrite Z.even_add. destruct (Z.even a), (Z.even b); cbn; ring. Qed.
Lemma sign_opp a : sign_pow (- a) = sign_pow a. Proof. unfold sign_pow. rewrite Z.even_opp. reflexivity. Qed.
Lemma mul_pair_const l m a c d : valid_lm (l, m) -> exists w, w3j_calculate 0 l 0 m = Ok w /\
  mul_pair 0 0 a l m c w d = ylm_add_to (l, m) (mul_factor l a * c) d.
Proof.
  intros [H1 H2]. cbn [fst snd] in H1, H2. destruct (single_term 0 l 0 m) as (w & Ew & _ & Fw); [lia|exact H2|unfold w_jmax, w_jmin; lia|].
  exists w. split; [exact Ew|]. unfold mul_pair. replace (Z.max (Z.abs (0 + m)) (Z.abs (0 - l))) with l by lia. replace (0 + l + 1)%Z with (l + 1)%Z by lia.
  rewrite zrange_one. cbn [fold_left]. replace (0 + m)%Z with m by lia. f_equal. rewrite Fw.
  replace (w_jmin 0 l 0 m) with l by (unfold w_jmin; lia). rewrite Z.eqb_refl. change (parity_sign (0 - l + 0 + m)) with (sign_pow (0 - l + 0 + m)).
  assert (P : 0 < IZR (2 * l + 1)) by (apply IZR_lt; lia). replace (2 * IZR l + 1) with (IZR (2 * l + 1)) by (rewrite plus_IZR, mult_IZR; reflexivity).
  replace (0 + l + l + m)%Z with (l + l + m)%Z by lia. replace (0 - l + 0 + m)%Z with (- l + m)%Z by lia. rewrite !sign_add, sign_opp.
  replace (IZR (2 * 0 + 1)) with 1 by reflexivity. unfold mul_factor.
  assert (SQ : sqrt (1 / (4 * PI)) = 1 / sqrt (4 * PI)). { rewrite sqrt_div, sqrt_1; [reflexivity|lra|]. pose proof PI_RGT_0. lra. }
  rewrite SQ. pose proof (sqrt_lt_R0 _ P) as Ps. assert (Pp : 0 < sqrt (4 * PI)) by (apply sqrt_lt_R0; pose proof PI_RGT_0; lra).
  pose proof (sign_sq l) as Sl. pose proof (sign_sq m) as Sm.
  transitivity ((sign_pow l * sign_pow l) * (sign_pow m * sign_pow m) * (sign_pow l * sqrt (IZR (2 * l + 1)) * a / sqrt (4 * PI) * c)); [field; split; lra|].
  rewrite Sl, Sm. ring.
Qed.
Lemma lget0_add k x d k' : lget0 k' (ylm_add_to k x d) = lget0 k' d + (if lm_eqb k' k then x else 0).
Proof.
  unfold lget0, ylm_add_to. rewrite (dget_dupd lm_eqb lm_eqb_eq). destruct (lm_eqb k' k) eqn:E; [|destruct (dget lm_eqb k' d); ring].
  apply lm_eqb_eq in E. subst k'. destruct (dget lm_eqb k d); ring.
Qed.
Definition lm_dec (a b : Z * Z) : {a = b} + {a <> b}.
Proof. decide equality; apply Z.eq_dec. Defined.
Lemma mul_inner_fold f v a es : dget lm_eqb (0, 0)%Z (y_data f) = Some a -> NoDup es -> (forall e, In e es -> valid_lm e) -> forall d, valid_coeffs d ->
  exists d', fold_left (mul_inner f v (0, 0)%Z) es (Ok d) = Ok d' /\ valid_coeffs d' /\
   (forall k, In k (map fst d') <-> In k (map fst d) \/ (In k es /\ In k (map fst (y_data v)))) /\
   (forall k, lget0 k d' = lget0 k d + (if in_dec lm_dec k es then mul_factor (fst k) a * lget0 k (y_data v) else 0)).
Proof.
  intros Ha. induction es as [|[l m] es IH]; intros Hn Hv d Hd.
  - exists d. split; [reflexivity|]. split; [exact Hd|]. split; [intros k; cbn; tauto|]. intros k. destruct (in_dec lm_dec k []) as [[]|]. ring.
  - inversion Hn as [|? ? Hne Hn']; subst. specialize (IH Hn' ltac:(intros; apply Hv; right; assumption)).
    assert (Vl : valid_lm (l, m)) by (apply Hv; left; reflexivity).
    cbn [fold_left]. unfold mul_inner at 2. cbn [rbind fst snd]. rewrite Ha. destruct (dget lm_eqb (l, m) (y_data v)) as [c|] eqn:G.
    + destruct (mul_pair_const l m a c d Vl) as (w & Ew & Em). rewrite Ew. cbn [rbind]. rewrite Em.
      set (d1 := ylm_add_to (l, m) (mul_factor l a * c) d).
      assert (K1 : forall k, In k (map fst d1) <-> k = (l, m) \/ In k (map fst d)) by (intros k; apply (In_keys_dupd lm_eqb lm_eqb_eq)).
      assert (V1 : valid_coeffs d1).
      { split; [apply (NoDup_dupd lm_eqb lm_eqb_eq), Hd|]. intros k Hk. apply K1 in Hk. destruct Hk as [->|Hk]; [exact Vl|apply Hd, Hk]. }
      destruct (IH d1 V1) as (d' & E & V' & K' & G'). exists d'. split; [exact E|]. split; [exact V'|]. split.
      * intros k. rewrite K', K1. cbn [In]. pose proof (dget_In lm_eqb lm_eqb_eq _ _ _ G) as Gi. apply (in_map fst) in Gi. cbn [fst] in Gi.
        split; [intros [[->|H]|H]; try tauto; right; auto|]. intros [H|[[<-|H] H2]]; tauto.
      * intros k. rewrite G'. unfold d1. rewrite lget0_add. destruct (lm_eqb k (l, m)) eqn:E1.
        -- apply lm_eqb_eq in E1. subst k. destruct (in_dec lm_dec (l, m) es); [contradiction|]. destruct (in_dec lm_dec (l, m) ((l, m) :: es)) as [|H]; [|exfalso; apply H; left; reflexivity].
           cbn [fst]. unfold lget0 at 3. rewrite G. ring.
        -- assert (NE : k <> (l, m)) by (intros ->; rewrite (proj2 (lm_eqb_eq _ _) eq_refl) in E1; discriminate).
           destruct (in_dec lm_dec k es) as [H|H], (in_dec lm_dec k ((l, m) :: es)) as [H2|H2]; cbn [In] in H2; try (destruct H2 as [H2|H2]); try congruence; try tauto; ring.
    + destruct (IH d Hd) as (d' & E & V' & K' & G'). exists d'. split; [exact E|]. split; [exact V'|].
      pose proof (proj1 (dget_None lm_eqb lm_eqb_eq _ _) G) as Gn. split.
      * intros k. rewrite K'. cbn [In]. split; [tauto|]. intros [H|[[<-|H] H2]]; [left; exact H|exfalso; apply Gn; exact H2|right; split; assumption].
      * intros k. rewrite G'. destruct (in_dec lm_dec k es) as [H|H], (in_dec lm_dec k ((l, m) :: es)) as [H2|H2]; cbn [In] in H2; try tauto.
        destruct H2 as [<-|H2]; [|tauto]. unfold lget0 at 3. rewrite G. ring.
Qed.
Lemma lm_list_valid D e : In e (lm_list (Z.of_nat D)) <-> valid_lm e /\ (fst e <= Z.of_nat D)%Z.
Proof.
  destruct e as [l m]. unfold lm_list, valid_lm. rewrite in_flat_map. cbn [fst snd]. split.
  - intros (l' & H1 & H2). apply in_map_iff in H2. destruct H2 as (m' & E & H2). injection E as -> ->.
    unfold zrange in H1, H2. apply in_map_iff in H1, H2. destruct H1 as (i & <- & Hi), H2 as (j & <- & Hj). apply in_seq in Hi, Hj. lia.
  - intros [[H1 H2] H3]. exists l. split; [|apply in_map_iff; exists m; split; [reflexivity|]]; unfold zrange; apply in_map_iff.
    + exists (Z.to_nat l). split; [lia|apply in_seq; lia].
    + exists (Z.to_nat (m + l)). split; [lia|apply in_seq; lia].
Qed.
Lemma n2lm_index n : n2lm n = lm_of_index n.
Proof. unfold n2lm, lm_of_index. f_equal. ring. Qed.
Lemma lm_list_nodup D : NoDup (lm_list (Z.of_nat D)).
Proof.
  rewrite lm_list_form. apply FinFun.Injective_map_NoDup; [|apply seq_NoDup]. intros a b E. rewrite !n2lm_index in E. apply Nat2Z.inj.
  rewrite <- (proj2 (lm_of_index_valid (Z.of_nat a) ltac:(lia))), E. apply lm_of_index_valid. lia.
Qed.
Lemma mul_constant a f v : make_ylm [((0, 0)%Z, a)] = Ok f -> wf_ylm v -> exists w, ylm_mul f v = Ok w /\ wf_ylm w /\ y_deg w = y_deg v /\
  (forall k, lget0 k (y_data w) = mul_factor (fst k) a * lget0 k (y_data v)).
Proof.
  intros Ef Hw. injection Ef as <-. unfold ylm_mul. cbn [y_deg]. change (zmax_list _) with 0%Z. change (lm_list 0) with [(0, 0)%Z]. cbn [fold_left].
  pose proof Hw as (Hv & Hne & H0 & Hd & (k0 & Hk0 & Ek0)).
  replace (y_deg v) with (Z.of_nat (deg_nat v)) by (unfold deg_nat; lia).
  set (f := {| y_data := _ |}).
  destruct (mul_inner_fold f v a (lm_list (Z.of_nat (deg_nat v))) eq_refl (lm_list_nodup _) ltac:(intros e He; apply lm_list_valid in He; tauto) ([] : list (lmkey * R)) ltac:(split; [constructor|intros k []])) as (d & E & V & K & G).
  match type of E with ?L = _ => match goal with |- context [rbind ?a _] => change a with L end end. rewrite E. cbn [rbind].
  assert (KK : forall k, In k (map fst d) <-> In k (map fst (y_data v))).
  { intros k. rewrite K. cbn [map In]. split; [tauto|]. intros H. right. split; [|exact H]. apply lm_list_valid. split; [apply (proj2 Hv), H|]. apply Hd in H. unfold deg_nat. lia. }
  assert (Nd : d <> []). { intros ->. apply (proj2 (KK k0)) in Hk0. exact Hk0. }
  destruct (make_ylm_ok d Nd) as (w & Ew & D1 & D2 & (k' & D3 & D4) & _). exists w. split; [exact Ew|]. split; [apply (make_ylm_wf d w V Ew)|]. split.
  - replace (Z.of_nat (deg_nat v)) with (y_deg v) by (unfold deg_nat; lia). apply Z.le_antisymm; [rewrite <- D4; apply Hd, KK, D3|rewrite <- Ek0; apply D2, KK, Hk0].
  - intros k. rewrite D1, G. unfold lget0 at 1. cbn [dget]. destruct (in_dec lm_dec k _) as [Hi|Hi]; [ring|].
    rewrite (lget0_absent k (y_data v)); [ring|]. intros H. apply Hi. apply lm_list_valid. split; [apply (proj2 Hv), H|]. apply Hd in H. unfold deg_nat. lia.
Qed.
