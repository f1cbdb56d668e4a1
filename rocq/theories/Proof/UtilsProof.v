(** Proofs about starry/utils.py: the drawing grid, the graticule, 1D and 2D coefficient arrays. *)
From Coq Require Import Reals Lra Lia ZArith List Bool Arith.
From Verif Require Import Base.RealAux Base.Dict Model.Poly Model.Basis Model.S2fft Model.Rotation Model.Ylm Model.RvMap Model.Surface Model.StarryUtils
  Spec.PolySpec Spec.HarmonicSpec Spec.RotationSpec Spec.BasisSpec Spec.YlmSpec Spec.SpotSpec Spec.SurfaceSpec Spec.SystemSpec Spec.DrawSpec
  Proof.PolyProof Proof.PolyMatrix Proof.RotationProof Proof.AxisAngle Proof.Euler Proof.SurfaceProof Proof.DopplerProof Proof.IntensityProof.
From Verif Require Model.Transforms Model.Stack.
Import ListNotations.
Open Scope R_scope.

(** * Lists *)
Lemma mapM_ok {A B} (f : A -> result B) (g : A -> B) l : (forall a, In a l -> f a = Ok (g a)) -> Stack.mapM f l = Ok (map g l).
Proof. induction l as [|a l IH]; intros H; [reflexivity|]. cbn. rewrite H by (left; reflexivity). cbn [rbind]. rewrite IH by (intros; apply H; right; auto). reflexivity. Qed.
Lemma nth_firstn_ {A} (l : list A) : forall n k d, (k < n)%nat -> nth k (firstn n l) d = nth k l d.
Proof. induction l as [|a l IH]; intros n k d H; [now rewrite firstn_nil|]. destruct n; [lia|]. destruct k; [reflexivity|]. cbn. apply IH. lia. Qed.
Lemma nth_skipn_ {A} (l : list A) : forall n k d, nth k (skipn n l) d = nth (n + k) l d.
Proof. induction l as [|a l IH]; intros n k d; [rewrite skipn_nil; destruct k, (n + 0)%nat, n; cbn; try destruct k; reflexivity|]. destruct n; [reflexivity|]. cbn [skipn plus nth]. apply IH. Qed.
Lemma nth_map_seq {A} (f : nat -> A) n k d : (k < n)%nat -> nth k (map f (seq 0 n)) d = f k.
Proof. intros H. rewrite (nth_indep _ _ (f 0%nat)) by now rewrite map_length, seq_length. rewrite (map_nth f (seq 0 n) 0%nat). now rewrite seq_nth. Qed.
Lemma reshape_nth {A} n (l : list A) i j d : (i < n)%nat -> (j < n)%nat -> nth j (nth i (reshape n l) []) d = nth (i * n + j) l d.
Proof. intros Hi Hj. unfold reshape. rewrite nth_map_seq by exact Hi. rewrite nth_firstn_ by exact Hj. apply nth_skipn_. Qed.
Lemma reshape_shape {A} n (l : list A) : length l = (n * n)%nat -> length (reshape n l) = n /\ forall i, (i < n)%nat -> length (nth i (reshape n l) []) = n.
Proof.
  intros L. unfold reshape. rewrite map_length, seq_length. split; [reflexivity|]. intros i Hi. rewrite nth_map_seq by exact Hi.
  rewrite firstn_length, skipn_length, L. assert (i * n + n <= n * n)%nat by nia. lia.
Qed.

(** * The grid *)
Lemma linspace_spaced a b n i : (1 < n)%nat -> Transforms.linspace a b n i = spaced a b n i.
Proof. intros H. unfold Transforms.linspace, spaced. destruct (Nat.eqb_spec n 1); [lia|reflexivity]. Qed.
Lemma pixel_at res i j : (1 < res)%nat -> (i < res)%nat -> (j < res)%nat -> let x := spaced (-1) 1 res j in let y := spaced (-1) 1 res i in
  grid_pixel res (i * res + j) = if Rlt_dec 1 (x ^ 2 + y ^ 2) then Pixel None None x None None
    else Pixel (Some (PI / 2 - acos y)) (Some (atan2 x (sqrt (1 - x ^ 2 - y ^ 2)))) x (Some y) (Some (sqrt (1 - x ^ 2 - y ^ 2))).
Proof.
  intros Hr Hi Hj x y. unfold grid_pixel. replace ((i * res + j) mod res)%nat with j by (rewrite Nat.add_comm, Nat.mod_add by lia; symmetry; apply Nat.mod_small; lia).
  replace ((i * res + j) / res)%nat with i by (rewrite Nat.div_add_l by lia; rewrite (Nat.div_small j res) by lia; lia).
  rewrite !linspace_spaced by exact Hr. fold x y. unfold nan_sqrt, Rltb. destruct (Rlt_dec (1 - x ^ 2 - y ^ 2) 0), (Rlt_dec 1 (x ^ 2 + y ^ 2)); try lra; [reflexivity|].
  cbn [omap]. rewrite Rmult_0_l, Rplus_0_r. replace (0.5 * PI) with (PI / 2) by lra. reflexivity.
Qed.
Lemma above_sphere x y : x ^ 2 + y ^ 2 <= 1 -> on_sphere x y (sqrt (1 - x ^ 2 - y ^ 2)).
Proof. intros H. unfold on_sphere. rewrite pow2_sqrt by lra. ring. Qed.
Lemma grid_direction x y : x ^ 2 + y ^ 2 <= 1 -> direction (PI / 2 - acos y) (atan2 x (sqrt (1 - x ^ 2 - y ^ 2))) = above x y.
Proof.
  intros H. assert (Y : -1 <= y <= 1) by (pose proof (pow2_ge_0 x); split; nra). unfold direction, above.
  rewrite cos_shift, sin_shift, cos_acos by exact Y. rewrite sin_acos by exact Y.
  destruct (atan2_polar x (sqrt (1 - x ^ 2 - y ^ 2))) as (A & B). rewrite pow2_sqrt in A, B by lra.
  replace (1 - x ^ 2 - y ^ 2 + x ^ 2) with (1 - y²) in A, B by (unfold Rsqr; ring). rewrite A, B. reflexivity.
Qed.
Lemma acos_range y : - (PI / 2) <= PI / 2 - acos y <= PI / 2.
Proof. pose proof (acos_bound y). lra. Qed.
Lemma atan2_front x z : 0 <= z -> - (PI / 2) <= atan2 x z <= PI / 2.
Proof.
  intros H. unfold atan2. pose proof PI_RGT_0. destruct (Rlt_dec 0 z).
  - pose proof (atan_bound (x / z)). lra.
  - destruct (Rlt_dec z 0); [lra|]. destruct (Rlt_dec 0 x); [lra|]. destruct (Rlt_dec x 0); lra.
Qed.

(** * The image *)
Section Image.
Variable as_euler : vec3 -> vec3.
Hypothesis Hz : zyz_euler as_euler.
Lemma render_pixels s theta res rv (F : R -> R -> R -> R) : (1 < res)%nat ->
  (forall x y z, on_sphere x y z -> surf_intensity_xyz as_euler s x y z theta rv = Ok (F x y z)) ->
  exists img, render as_euler s theta res rv = Ok img /\ length img = res /\ (forall i, (i < res)%nat -> length (nth i img []) = res) /\
  forall i j, (i < res)%nat -> (j < res)%nat -> let x := spaced (-1) 1 res j in let y := spaced (-1) 1 res i in
  nth j (nth i img []) None = if Rlt_dec 1 (x ^ 2 + y ^ 2) then None else Some (F x y (sqrt (1 - x ^ 2 - y ^ 2))).
Proof.
  intros Hr HF. unfold render.
  set (g := fun p => match px_y p, px_z p with Some y, Some z => Some (F (px_x p) y z) | _, _ => None end).
  assert (G : forall i j, (i < res)%nat -> (j < res)%nat -> pixel_intensity as_euler s theta rv (grid_pixel res (i * res + j)) = Ok (g (grid_pixel res (i * res + j)))).
  { intros i j Hi Hj. rewrite pixel_at by assumption. destruct (Rlt_dec _ _) as [K|K].
    - unfold pixel_intensity, g. cbn [px_y px_z]. rewrite HF by (unfold on_sphere; ring). reflexivity.
    - unfold pixel_intensity, g. cbn [px_y px_z px_x]. rewrite HF by (apply above_sphere; lra). reflexivity. }
  assert (M : Stack.mapM (pixel_intensity as_euler s theta rv) (ortho_grid res) = Ok (map g (ortho_grid res))).
  { apply mapM_ok. intros p Hp. unfold ortho_grid in Hp. apply in_map_iff in Hp. destruct Hp as (k & <- & Hk). apply in_seq in Hk.
    assert (K : (k = (k / res) * res + k mod res)%nat) by (rewrite Nat.mul_comm; apply Nat.div_mod; lia). rewrite K.
    apply G; [apply Nat.div_lt_upper_bound; lia|apply Nat.mod_upper_bound; lia]. }
  rewrite M. cbn [rbind]. eexists. split; [reflexivity|].
  destruct (reshape_shape res (map g (ortho_grid res))) as (S1 & S2). { rewrite map_length. unfold ortho_grid. now rewrite map_length, seq_length. }
  split; [exact S1|split; [exact S2|]]. intros i j Hi Hj. rewrite reshape_nth by assumption. unfold ortho_grid. rewrite map_map.
  rewrite (nth_map_seq (fun k => g (grid_pixel res k))) by nia. rewrite pixel_at by assumption. unfold g. destruct (Rlt_dec _ _); reflexivity.
Qed.
End Image.

(** * The graticule *)
Lemma rotvec_z t p : rotvec (0, 0, t) p = rot_z t p.
Proof. replace (0, 0, t) with (scal3 t (0, 0, 1)) by (unfold scal3; apply triple_eq; ring). rewrite rotvec_axis by (unfold unit3, dot3; ring). apply rot_axis_z. Qed.
Lemma rotvec_x t p : rotvec (t, 0, 0) p = rot_x t p.
Proof. replace (t, 0, 0) with (scal3 t (1, 0, 0)) by (unfold scal3; apply triple_eq; ring). rewrite rotvec_axis by (unfold unit3, dot3; ring). apply rot_axis_x. Qed.
Lemma cs1 t : cos t * cos t + sin t * sin t = 1.
Proof. pose proof (sin2_cos2 t) as C. unfold Rsqr in C. lra. Qed.
Lemma rot_axis_turned o a p : rot_axis (cos o, sin o, 0) a (rot_z o p) = rot_z o (rot_x a p).
Proof.
  destruct p as [[x y] z]. pose proof (cs1 o) as C. unfold rot_axis, rot_z, rot_x, add3, scal3, cross3, dot3. set (c := cos o) in *. set (s := sin o) in *. set (ca := cos a). set (sa := sin a). clearbody c s ca sa.
  assert (D : c * (x * c - y * s) + s * (x * s + y * c) = x). { transitivity (x * (c * c + s * s)); [ring|rewrite C; ring]. }
  assert (E : c * (x * s + y * c) - s * (x * c - y * s) = y). { transitivity (y * (c * c + s * s)); [ring|rewrite C; ring]. }
  apply triple_eq.
  - transitivity (ca * (x * c - y * s) + sa * (s * z) + (1 - ca) * (c * (x * c - y * s) + s * (x * s + y * c)) * c); [ring|]. rewrite D. ring.
  - transitivity (ca * (x * s + y * c) - sa * (c * z) + (1 - ca) * (c * (x * c - y * s) + s * (x * s + y * c)) * s); [ring|]. rewrite D. ring.
  - transitivity (ca * z + sa * (c * (x * s + y * c) - s * (x * c - y * s))); [ring|]. rewrite E. ring.
Qed.
Lemma rot_x_pi_z t p : rot_x PI (rot_z (- t) p) = rot_z t (rot_x PI p).
Proof. destruct p as [[x y] z]. unfold rot_x, rot_z. rewrite cos_PI, sin_PI, cos_neg, sin_neg. apply triple_eq; ring. Qed.
Lemma graticule_is_sky inc obl theta p : graticule_rotation rotvec inc obl theta p = sky_point inc obl theta (rot_x (PI / 2) p).
Proof.
  unfold graticule_rotation. replace (cos obl ^ 2 + sin obl ^ 2 + 0 ^ 2) with 1 by (pose proof (cs1 obl); lra). rewrite sqrt_1.
  replace (cos obl / 1 * - (inc - PI / 2), sin obl / 1 * - (inc - PI / 2), 0 / 1 * - (inc - PI / 2)) with (scal3 (PI / 2 - inc) (cos obl, sin obl, 0)) by (unfold scal3; apply triple_eq; field).
  rewrite rotvec_axis by (unfold unit3, dot3; pose proof (cs1 obl); lra). rewrite !rotvec_z, rotvec_x, rot_axis_turned. unfold sky_point. f_equal.
  rewrite rot_xx. replace (PI / 2 - inc + PI / 2) with (- inc + PI) by field. rewrite <- rot_xx. f_equal. rewrite rot_x_pi_z. f_equal. rewrite rot_xx. f_equal. field.
Qed.
Lemma lin_sky inc obl theta c p : sky_point inc obl theta (scal3 c p) = scal3 c (sky_point inc obl theta p).
Proof. destruct p as [[x y] z]. unfold sky_point, scal3, rot_z, rot_x. apply triple_eq; ring. Qed.
Lemma lat_point inc obl theta r phi th : graticule_rotation rotvec inc obl theta (r * sin phi * cos th, r * sin phi * sin th, 1 * (r * cos phi)) =
  scal3 r (sky_point inc obl theta (direction (phi - PI / 2) (PI / 2 - th))).
Proof.
  rewrite graticule_is_sky, <- lin_sky. f_equal. unfold rot_x, direction, scal3. rewrite cos_PI2, sin_PI2, sin_shift, cos_shift.
  replace (phi - PI / 2) with (- (PI / 2 - phi)) by ring. rewrite cos_neg, sin_neg, sin_shift, cos_shift. apply triple_eq; ring.
Qed.
Lemma plot_sky inc obl theta r lat lon : plot_point (scal3 r (sky_point inc obl theta (direction lat lon))) = drawn_at inc obl theta r lat lon.
Proof. unfold plot_point, drawn_at. destruct (sky_point _ _ _ _) as [[x y] z]. unfold scal3, Rltb. destruct (Rlt_dec _ _); reflexivity. Qed.
Lemma map_ext_seq {A} (f g : nat -> A) n : (forall i, (i < n)%nat -> f i = g i) -> map f (seq 0 n) = map g (seq 0 n).
Proof. intros H. apply map_ext_in. intros i Hi. apply in_seq in Hi. apply H. lia. Qed.
Lemma graticule_lines inc obl theta pts radius n : (3 < pts)%nat -> (0 < n)%nat ->
  graticule rotvec inc obl theta pts radius n =
  map (fun k => map (fun i => drawn_at inc obl theta radius (spaced (- (PI / 2)) (PI / 2) (n + 1) k) (spaced (PI / 2) (- (3 / 2) * PI) pts i)) (seq 0 pts)) (seq 0 (n + 1)) ++
  map (fun k => map (fun i => drawn_at inc obl theta radius (spaced (- (PI / 2)) (PI / 2) (pts / 2) i) (spaced (PI / 2) (- (3 / 2) * PI) (2 * n + 1) k)) (seq 0 (pts / 2))) (seq 0 (2 * n)).
Proof.
  intros Hp Hn. assert (P2 : (1 < pts / 2)%nat) by (apply Nat.div_le_lower_bound; lia).
  unfold graticule, plot_lines, rotate_lines, lat_lines, lon_lines. f_equal; rewrite !map_map; apply map_ext_seq; intros k Hk; rewrite !map_map; apply map_ext_seq; intros i Hi.
  - rewrite !linspace_spaced by lia. rewrite lat_point, plot_sky. f_equal; unfold spaced; field; apply not_0_INR; lia.
  - rewrite !linspace_spaced by lia. set (ph := spaced 0 (2 * PI) (2 * n + 1) k). set (th := spaced 0 PI (pts / 2) i).
    replace (radius * cos th) with (1 * (radius * cos th)) by ring. rewrite lat_point, plot_sky. f_equal; unfold ph, th, spaced; field; apply not_0_INR; lia.
Qed.

(** * Coefficient arrays *)
Lemma jax_get_nth x n : (n < length x)%nat -> jax_get x (Z.of_nat n) = nth n x 0.
Proof. intros H. unfold jax_get. destruct (Z.ltb_spec (Z.of_nat n) 0); [lia|]. rewrite Z.min_l, Z.max_r by lia. now rewrite Nat2Z.id. Qed.
Lemma y2d_spec D M : length (y2d_to_1d D M) = ((D + 1) * (D + 1))%nat /\
  forall n, (n < (D + 1) * (D + 1))%nat -> nth n (y2d_to_1d D M) 0 = let '(l, m) := n2lm (Z.of_nat n) in M l (m + Z.of_nat D)%Z.
Proof.
  unfold y2d_to_1d. rewrite lm_enum_form. set (N := ((D + 1) * (D + 1))%nat). 
  assert (G : forall k, (k <= N)%nat -> let y := fold_left (fun y e => let '(i, (l, m)) := e in upd y (Z.to_nat i) (M l (m + Z.of_nat D)%Z)) (map (fun n => (Z.of_nat n, n2lm (Z.of_nat n))) (seq 0 k)) (repeat 0 N) in
    length y = N /\ forall n, (n < k)%nat -> nth n y 0 = let '(l, m) := n2lm (Z.of_nat n) in M l (m + Z.of_nat D)%Z).
  { induction k as [|k IH]; intros Hk; [cbn; rewrite repeat_length; split; [reflexivity|intros; lia]|]. rewrite seq_S, map_app, fold_left_app. cbn [map fold_left plus].
    destruct (IH ltac:(lia)) as (L & V). destruct (n2lm (Z.of_nat k)) as [l m] eqn:E. rewrite Nat2Z.id. split; [now rewrite upd_length|].
    intros n Hn. destruct (Nat.eq_dec n k) as [->|]; [rewrite upd_same by lia; now rewrite E|]. rewrite upd_other by lia. apply V. lia. }
  apply (G N). lia.
Qed.
Lemma y1d_spec D y : length y = ((D + 1) * (D + 1))%nat ->
  (forall l m, lm_valid l m -> (l <= Z.of_nat D)%Z -> y1d_to_2d D y l (m + Z.of_nat D)%Z = nth (Z.to_nat (lm2n l m)) y 0) /\
  (forall l m, ~ (lm_valid l m /\ (l <= Z.of_nat D)%Z) -> y1d_to_2d D y l (m + Z.of_nat D)%Z = 0).
Proof.
  intros L. unfold y1d_to_2d. rewrite lm_enum_form. set (N := ((D + 1) * (D + 1))%nat) in *. set (d := Z.of_nat D).
  assert (G : forall k, (k <= N)%nat -> forall l m,
    fold_left (fun M e => let '(i, (l, m)) := e in mat_set (d + 1) (2 * d + 1) M l (m + d) (jax_get y i)) (map (fun n => (Z.of_nat n, n2lm (Z.of_nat n))) (seq 0 k)) (fun _ _ => 0) l (m + d)%Z =
    if ((0 <=? l) && (- l <=? m) && (m <=? l) && (lm2n l m <? Z.of_nat k))%Z%bool then nth (Z.to_nat (lm2n l m)) y 0 else 0).
  { induction k as [|k IH]; intros Hk l m.
    - cbn [seq map fold_left]. destruct (Z.leb_spec 0 l), (Z.leb_spec (- l) m), (Z.leb_spec m l), (Z.ltb_spec (lm2n l m) (Z.of_nat 0)); cbn [andb]; try reflexivity. unfold lm2n in *. nia.
    - rewrite seq_S, map_app, fold_left_app. cbn [map fold_left plus]. assert (V := n2lm_valid (Z.of_nat k) ltac:(lia)). assert (E := n2lm_lm2n (Z.of_nat k)).
      destruct (n2lm (Z.of_nat k)) as [l' m']. cbn [fst snd] in V, E. unfold lm_valid in V.
      assert (LD : (l' <= d)%Z). { unfold lm2n in E. unfold N in Hk. unfold d. nia. }
      unfold mat_set. destruct (Z.leb_spec 0 l'); [|lia]. destruct (Z.ltb_spec l' (d + 1)); [|lia]. destruct (Z.leb_spec 0 (m' + d)); [|lia]. destruct (Z.ltb_spec (m' + d) (2 * d + 1)); [|lia]. cbn [andb].
      destruct (Z.eqb_spec l l') as [->|], (Z.eqb_spec (m + d) (m' + d)) as [Em|Em]; cbn [andb].
      + assert (m = m') as -> by lia. rewrite jax_get_nth by lia. destruct (Z.leb_spec 0 l'), (Z.leb_spec (- l') m'), (Z.leb_spec m' l'), (Z.ltb_spec (lm2n l' m') (Z.of_nat (S k))); cbn [andb]; try lia. f_equal. lia.
      + rewrite IH by lia. destruct (Z.leb_spec 0 l'), (Z.leb_spec (- l') m), (Z.leb_spec m l'), (Z.ltb_spec (lm2n l' m) (Z.of_nat (S k))), (Z.ltb_spec (lm2n l' m) (Z.of_nat k)); cbn [andb]; try reflexivity; unfold lm2n in *; lia.
      + rewrite IH by lia. destruct (Z.leb_spec 0 l), (Z.leb_spec (- l) m), (Z.leb_spec m l), (Z.ltb_spec (lm2n l m) (Z.of_nat (S k))), (Z.ltb_spec (lm2n l m) (Z.of_nat k)); cbn [andb]; try reflexivity; unfold lm2n in *; nia.
      + rewrite IH by lia. destruct (Z.leb_spec 0 l), (Z.leb_spec (- l) m), (Z.leb_spec m l), (Z.ltb_spec (lm2n l m) (Z.of_nat (S k))), (Z.ltb_spec (lm2n l m) (Z.of_nat k)); cbn [andb]; try reflexivity; unfold lm2n in *; nia. }
  split; intros l m H; [intros H'|]; rewrite G by lia; unfold lm_valid in *; unfold d in *; unfold N, lm2n in *;
  destruct (Z.leb_spec 0 l), (Z.leb_spec (- l) m), (Z.leb_spec m l), (Z.ltb_spec (l ^ 2 + l + m) (Z.of_nat ((D + 1) * (D + 1)))); cbn [andb]; try reflexivity; nia.
Qed.
Lemma y_roundtrip D y : length y = ((D + 1) * (D + 1))%nat -> y2d_to_1d D (y1d_to_2d D y) = y.
Proof.
  intros L. destruct (y2d_spec D (y1d_to_2d D y)) as (L2 & V). destruct (y1d_spec D y L) as (V1 & _). apply (nth_ext _ _ 0 0); [congruence|]. intros n Hn. rewrite L2 in Hn. rewrite V by exact Hn.
  assert (W := n2lm_valid (Z.of_nat n) ltac:(lia)). assert (E := n2lm_lm2n (Z.of_nat n)). destruct (n2lm (Z.of_nat n)) as [l m]. cbn [fst snd] in *.
  rewrite V1; [rewrite E; now rewrite Nat2Z.id|exact W|]. unfold lm_valid, lm2n in *. nia.
Qed.
