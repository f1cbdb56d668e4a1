(** Light curves and radial velocities of partly hidden maps. *)
From Coq Require Import Reals Lra Lia ZArith List Bool Arith Psatz.
From Coquelicot Require Import Coquelicot.
From Verif Require Import Base.RealAux Base.Analysis Base.Dict Model.Poly Model.Basis Model.Rotation Model.Solution Model.SolutionVector Model.Ylm Model.RvMap Model.Surface Model.StarryLightCurve
  Spec.PolySpec Spec.HarmonicSpec Spec.RotationSpec Spec.BasisSpec Spec.DiskSpec Spec.OccultSpec Spec.YlmSpec Spec.SurfaceSpec Spec.SystemSpec Spec.SkySpec
  Proof.PolyProof Proof.BasisProof Proof.GreenProof Proof.GreenInv Proof.LimbDarkGreen Proof.LimbDarkArea Proof.LimbDarkProof Proof.Ray Proof.Edge Proof.Occult Proof.Monomial Proof.GreenLine Proof.GreenFamilies Proof.SolutionGreen Proof.SolutionQuad
  Proof.DiskProof Proof.DiskRot Proof.RTProof Proof.YlmMore Proof.Euler Proof.SurfaceProof Proof.StarryProof Proof.DopplerProof Proof.OccultedSky.
Import ListNotations.
Open Scope R_scope.

(** ** rotation of the sky *)
Lemma around_rot (F : vec3 -> R) b r tz w : vis b r (fun x y => F (rot_z (- tz) (x, y, zdisk x y))) w ->
  flux_around (b * sin tz) (b * cos tz) r (fun x y => F (x, y, zdisk x y)) = w.
Proof.
  intros V. destruct (vis_disk _ _ _ _ V) as [C E]. rewrite <- E. unfold flux_around. rewrite <- (disk_rot _ tz C). apply disk_ext_in. intros x y Hd.
  assert (Q := limb_sq tz). cbn [pow] in Q. rewrite !Rmult_1_r in Q.
  unfold unhidden_by. replace ((x * cos tz - y * sin tz - 0) ^ 2 + (x * sin tz + y * cos tz - b) ^ 2) with ((x - b * sin tz) ^ 2 + (y - b * cos tz) ^ 2).
  2:{ transitivity ((x * x + y * y + b * b) * (sin tz * sin tz + cos tz * cos tz) - (x * x + y * y) * (sin tz * sin tz + cos tz * cos tz - 1) - 2 * b * (x * sin tz + y * cos tz)); [rewrite Q; transitivity (x * x + y * y + b * b * (sin tz * sin tz + cos tz * cos tz) - 2 * b * (x * sin tz + y * cos tz)); [ring|rewrite Q; ring]|]. 
      transitivity ((x * x + y * y) * 1 + b * b - 2 * b * (x * sin tz + y * cos tz)); [rewrite Q; ring|]. rewrite <- Q at 1. ring. }
  destruct (Rlt_dec _ _); [reflexivity|]. f_equal. unfold rot_z. rewrite cos_neg, sin_neg, zdisk_rot. apply AxisAngle.triple_eq; [|  |reflexivity].
  - transitivity (x * (sin tz * sin tz + cos tz * cos tz)); [rewrite Q|]; ring.
  - transitivity (y * (sin tz * sin tz + cos tz * cos tz)); [rewrite Q|]; ring.
Qed.
Lemma polar_atan2 x y : sqrt (x ^ 2 + y ^ 2) * sin (atan2 x y) = x /\ sqrt (x ^ 2 + y ^ 2) * cos (atan2 x y) = y.
Proof.
  destruct (Req_dec x 0) as [Hx|Hx]; [destruct (Req_dec y 0) as [Hy|Hy]|].
  - subst. replace (0 ^ 2 + 0 ^ 2) with 0 by ring. rewrite sqrt_0. split; ring.
  - rewrite sin_atan2, cos_atan2 by auto. replace (y² + x²) with (x ^ 2 + y ^ 2) by (unfold Rsqr; ring). assert (0 < sqrt (x ^ 2 + y ^ 2)) by (apply sqrt_lt_R0; nra). split; field; lra.
  - rewrite sin_atan2, cos_atan2 by auto. replace (y² + x²) with (x ^ 2 + y ^ 2) by (unfold Rsqr; ring). assert (0 < sqrt (x ^ 2 + y ^ 2)) by (apply sqrt_lt_R0; nra). split; field; lra.
Qed.
(** ** the dot product with the design matrix *)
Definition green_of (D : nat) (M : matrix) (v : nat -> R) (m : nat) : R := bigsum ((D + 1) * (D + 1)) (fun n => M (Z.of_nat m) (Z.of_nat n) * v n).
Lemma green_of_inv D M v : right_inverse ((D + 1) * (D + 1)) (A2_inv (Z.of_nat D)) M -> forall k, (k < (D + 1) * (D + 1))%nat ->
  bigsum ((D + 1) * (D + 1)) (fun m => A2_inv (Z.of_nat D) (Z.of_nat k) (Z.of_nat m) * green_of D M v m) = v k.
Proof.
  intros H k Hk. unfold green_of. set (N := ((D + 1) * (D + 1))%nat) in *.
  rewrite (bigsum_ext N _ (fun m => bigsum N (fun n => A2_inv (Z.of_nat D) (Z.of_nat k) (Z.of_nat m) * M (Z.of_nat m) (Z.of_nat n) * v n))) by (intros; rewrite <- bigsum_scal; apply bigsum_ext; intros; ring).
  rewrite bigsum_swap. rewrite (bigsum_ext N _ (fun n => (if Nat.eqb k n then 1 else 0) * v n)).
  - rewrite (bigsum_single N k) by (exact Hk || (intros i _ Hi; destruct (Nat.eqb_spec k i); [congruence|ring])). rewrite Nat.eqb_refl. ring.
  - intros n Hn. rewrite <- (H k n Hk Hn). rewrite Rmult_comm, <- bigsum_scal. apply bigsum_ext. intros. ring.
Qed.
Lemma green_of_curl D M v : right_inverse ((D + 1) * (D + 1)) (A2_inv (Z.of_nat D)) M -> green_coefficients D (green_of D M v) (fun x y => dense_eval D v x y (zdisk x y)).
Proof.
  intros H x y Hd H0. assert (C := green_combination_curl D (green_of D M v) x y Hd H0). replace (dense_eval D v x y (zdisk x y)) with (dense_eval D (fun r => bigsum ((D + 1) * (D + 1)) (fun n => A2_inv (Z.of_nat D) (Z.of_nat r) (Z.of_nat n) * green_of D M v n)) x y (zdisk x y)); [exact C|].
  rewrite !dense_eval_flat. apply bigsum_ext. intros k Hk. rewrite green_of_inv by assumption. reflexivity.
Qed.
Lemma vis_dense D M v b r (V : nat -> nat -> R) : right_inverse ((D + 1) * (D + 1)) (A2_inv (Z.of_nat D)) M ->
  (forall l nu, (l <= D)%nat -> (nu <= 2 * l)%nat -> vis b r (gfun l nu) (V l nu)) ->
  vis b r (fun x y => dense_eval D v x y (zdisk x y)) (bigsum (S D) (fun l => bigsum (2 * l + 1) (fun nu => green_of D M v (l * l + nu) * V l nu))).
Proof.
  intros H HV. set (g := green_of D M v).
  apply (vis_ext b r (fun x y => bigsum (S D) (fun l => bigsum (2 * l + 1) (fun nu => g (l * l + nu)%nat * dict_eval (gtilde (Z.of_nat (l * l + nu))) x y (zdisk x y))))).
  - intros x y. rewrite <- (A2_inv_eval D g x y (zdisk x y)). cbv zeta. rewrite !dense_eval_flat. apply bigsum_ext. intros k Hk. unfold g. rewrite green_of_inv by assumption. reflexivity.
  - apply (vis_bigsum b r (S D) (fun l x y => bigsum (2 * l + 1) (fun nu => g (l * l + nu)%nat * dict_eval (gtilde (Z.of_nat (l * l + nu))) x y (zdisk x y)))). intros l Hl.
    apply (vis_bigsum b r (2 * l + 1) (fun nu x y => g (l * l + nu)%nat * dict_eval (gtilde (Z.of_nat (l * l + nu))) x y (zdisk x y))). intros nu Hnu. apply vis_scal. apply HV; lia.
Qed.
Lemma design_dot D M v (s : list R) : let N := ((D + 1) * (D + 1))%nat in length s = N ->
  bigsum N (fun n => v n * nth n (vec_mat N s M) 0) = bigsum (S D) (fun l => bigsum (2 * l + 1) (fun nu => green_of D M v (l * l + nu) * nth (l * l + nu) s 0)).
Proof.
  intros N L. rewrite <- (bigsum_square D (fun n => green_of D M v n * nth n s 0)). fold N.
  rewrite (bigsum_ext N _ (fun n => bigsum N (fun m => v n * (nth m s 0 * M (Z.of_nat m) (Z.of_nat n))))).
  2:{ intros n Hn. unfold vec_mat. rewrite nth_map_seq by exact Hn. rewrite <- bigsum_scal. reflexivity. }
  rewrite bigsum_swap. apply bigsum_ext. intros m Hm. unfold green_of. fold N. rewrite Rmult_comm, <- bigsum_scal. apply bigsum_ext. intros. ring.
Qed.
Lemma vec_mat_length N s M : length (vec_mat N s M) = N.
Proof. unfold vec_mat. now rewrite map_length, seq_length. Qed.
(** the two regimes of an occultor in front, in terms of the design matrix (a row vector) *)
Lemma design_partial eps low high M D b r v s : right_inverse ((D + 1) * (D + 1)) (A2_inv (Z.of_nat D)) M -> 0 < eps -> 0 <= b -> 0 <= r -> b < 1 + r -> r < 1 + b -> clear_of_guards eps high b r ->
  starry_solution eps low high D b r = Ok s ->
  vis b r (fun x y => dense_eval D v x y (zdisk x y))
   (bigsum ((D + 1) * (D + 1)) (fun n => v n * nth n (vec_mat ((D + 1) * (D + 1)) s M) 0) - edge_errors D (green_of D M v) low high b r).
Proof.
  intros H He Hb Hr H1 H2 G E.
  assert (V := vis_dense D M v b r (fun l nu => sol_entry eps low high b r l nu - green_error (green_rule low high nu) b r l nu) H (fun l nu _ Hnu => sol_partial eps low high b r l nu Hnu He Hb Hr H1 H2 G)).
  apply (vis_val _ _ _ _ _ V). rewrite design_dot by exact (sol_length _ _ _ _ _ _ _ E). unfold edge_errors. rewrite bigsum_minus'. apply bigsum_ext. intros l Hl. rewrite bigsum_minus'. apply bigsum_ext. intros nu Hnu.
  rewrite (sol_nth _ _ _ _ _ _ _ l nu E) by lia. ring.
Qed.
Lemma design_hidden eps low high M D b r v s : 0 <= b -> 1 + b <= r -> ~ (b = 0 /\ r = 1) -> starry_solution eps low high D b r = Ok s ->
  bigsum ((D + 1) * (D + 1)) (fun n => v n * nth n (vec_mat ((D + 1) * (D + 1)) s M) 0) = 0.
Proof.
  intros Hb Hr N E. rewrite design_dot by exact (sol_length _ _ _ _ _ _ _ E). apply bigsum_zero_ext. intros l Hl. apply bigsum_zero_ext. intros nu Hnu.
  rewrite (sol_nth _ _ _ _ _ _ _ l nu E) by lia. rewrite sol_hidden by (lia || assumption). ring.
Qed.
Lemma design_centred eps low high M D v s : right_inverse ((D + 1) * (D + 1)) (A2_inv (Z.of_nat D)) M -> starry_solution eps low high D 0 1 = Ok s ->
  bigsum ((D + 1) * (D + 1)) (fun n => v n * nth n (vec_mat ((D + 1) * (D + 1)) s M) 0) = disk_integral (fun x y => dense_eval D v x y (zdisk x y)).
Proof.
  intros H E. assert (V := vis_dense D M v 0 0 (fun l nu => q_entry (/ 2 * PI - 0) l nu) H (fun l nu _ Hnu => q_full l nu Hnu)). destruct (vis_disk _ _ _ _ V) as [_ F].
  rewrite design_dot by exact (sol_length _ _ _ _ _ _ _ E).
  transitivity (flux_around 0 0 0 (fun x y => dense_eval D v x y (zdisk x y))).
  - rewrite F. apply bigsum_ext. intros l Hl. apply bigsum_ext. intros nu Hnu. rewrite (sol_nth _ _ _ _ _ _ _ l nu E) by lia. rewrite sol_centred. reflexivity.
  - unfold flux_around. apply disk_ext_in. intros x y _. unfold unhidden_by. destruct (Rlt_dec _ _) as [L|L]; [exfalso; nra|reflexivity].
Qed.
(** ** light curves *)
Lemma dense_pad D E v x y z : (D <= E)%nat -> dense_eval E (fun n => if Nat.ltb n ((D + 1) * (D + 1)) then v n else 0) x y z = dense_eval D v x y z.
Proof.
  intros H. unfold dense_eval. replace (S E) with (S D + (E - D))%nat by lia. rewrite bigsum_add. rewrite (bigsum_zero_ext (E - D)).
  - rewrite Rplus_0_r. apply bigsum_ext. intros l Hl. apply bigsum_ext. intros nu Hnu. destruct (Nat.ltb_spec (l * l + nu) ((D + 1) * (D + 1))); [reflexivity|nia].
  - intros l Hl. apply bigsum_zero_ext. intros nu Hnu. destruct (Nat.ltb_spec ((S D + l) * (S D + l) + nu) ((D + 1) * (D + 1))); [nia|ring].
Qed.
Lemma dot_pad D E v (d : nat -> R) : (D <= E)%nat -> bigsum ((E + 1) * (E + 1)) (fun n => (if Nat.ltb n ((D + 1) * (D + 1)) then v n else 0) * d n) = bigsum ((D + 1) * (D + 1)) (fun n => v n * d n).
Proof.
  intros H. assert (N : ((D + 1) * (D + 1) <= (E + 1) * (E + 1))%nat) by nia. replace ((E + 1) * (E + 1))%nat with ((D + 1) * (D + 1) + ((E + 1) * (E + 1) - (D + 1) * (D + 1)))%nat by lia.
  set (n1 := ((D + 1) * (D + 1))%nat) in *. rewrite bigsum_add, (bigsum_zero_ext (_ - _)).
  - rewrite Rplus_0_r. apply bigsum_ext. intros n Hn. destruct (Nat.ltb_spec n n1); [reflexivity|lia].
  - intros n _. destruct (Nat.ltb_spec (n1 + n) n1); [lia|ring].
Qed.
(** the dense vector of a polynomial, and its product with any row vector of the length of a degree E >= D *)
Lemma repr_dot p D f : repr p D f -> exists v : nat -> R, (forall x y z, on_sphere x y z -> dense_eval D v x y z = f x y z) /\
  forall design, length design = ncoef D -> pijk_dot p design = Ok (bigsum (ncoef D) (fun n => v n * nth n design 0)).
Proof.
  intros Rp. destruct (repr_todense _ _ _ Rp) as (v & E & L & V). exists (fun n => nth n v 0). split; [exact V|]. intros design LD. unfold pijk_dot. rewrite E. cbn [rbind]. apply dot_vec_ok; assumption.
Qed.
Lemma green_coefficients_ext D g F G : (forall x y, in_disk x y -> F x y = G x y) -> green_coefficients D g F -> green_coefficients D g G.
Proof. intros E H x y Hd H0. rewrite <- E by exact Hd. apply H; assumption. Qed.
Lemma geometry_front r x y z : sqrt (x ^ 2 + y ^ 2) < 1 + r -> 0 < z ->
  geometry r (Some x) (Some y) (Some z) = {| og_occ := true; og_b := sqrt (x ^ 2 + y ^ 2); og_r := r; og_theta_z := atan2 x y |}.
Proof.
  intros Hb Hz. assert (G := proj2 (geometry_occ r (Some x) (Some y) (Some z)) (conj Hb Hz)). unfold geometry in *. cbn [og_occ none0] in *. apply negb_true_iff in G. rewrite G. cbn [negb where_].
  replace (x² + y²) with (x ^ 2 + y ^ 2) by (unfold Rsqr; ring). reflexivity.
Qed.
Section Transit.
Variable as_euler : R * R * R -> R * R * R.
Hypothesis Hz : zyz_euler as_euler.
Variable s : surface.
Hypothesis Hy : wf_ylm (s_y s).
Variable A2 : nat -> matrix.
(** the product of the map and limb darkening as seen in the turned sky *)
Lemma turned_poly theta tz : exists ry p_u p_y p v, rotated_y as_euler s theta tz = Ok ry /\ ld_poly s = Ok p_u /\ repr p_u (surf_udeg s) (fun x y z => ld_profile (s_u s) z) /\
  from_dense (A1_mul (surf_ydeg s) ry) (Some (Z.of_nat (surf_ydeg s))) = Ok p_y /\ repr p_y (surf_ydeg s) (fun x y' z => 2 / sqrt PI * map_at (surf_ydeg s) ry (x, y', z)) /\ pijk_mul p_y p_u = Ok p /\
  (forall x y z, on_sphere x y z -> 2 / sqrt PI * map_at (surf_ydeg s) ry (x, y, z) * ld_profile (s_u s) z = seen s theta (rot_z (- tz) (x, y, z))) /\
  (forall x y z, on_sphere x y z -> dense_eval (surf_deg s) v x y z = seen s theta (rot_z (- tz) (x, y, z))) /\
  forall design, length design = ncoef (surf_deg s) -> pijk_dot p design = Ok (bigsum (ncoef (surf_deg s)) (fun n => v n * nth n design 0)).
Proof using Hz Hy.
  destruct (rotated_y_ok as_euler Hz s Hy theta tz) as (ry & E0 & L & V). destruct (ld_poly_ok s) as (p_u & E2 & R2). destruct (A1_mul_repr (surf_ydeg s) ry _ L (or_intror eq_refl)) as (p_y & E1 & R1).
  destruct (repr_mul _ _ _ _ _ _ R1 R2) as (p & E3 & R3). destruct (repr_dot _ _ _ R3) as (v & V3 & P3). exists ry, p_u, p_y, p, v.
  assert (HS : forall x y z, on_sphere x y z -> 2 / sqrt PI * map_at (surf_ydeg s) ry (x, y, z) * ld_profile (s_u s) z = seen s theta (rot_z (- tz) (x, y, z))).
  { intros x y z Hs. rewrite V by (apply sphere_iff, Hs). unfold seen, seen_intensity, rot_z. cbn [snd]. reflexivity. }
  split; [exact E0|split; [exact E2|split; [exact R2|split; [exact E1|split; [exact R1|split; [exact E3|split; [exact HS|split; [|exact P3]]]]]]]].
  intros x y z Hs. unfold surf_deg. rewrite V3 by exact Hs. apply HS, Hs.
Qed.
Lemma lc_front theta x y : surf_ydeg s <> 0%nat -> exists v,
  (forall a b c, on_sphere a b c -> dense_eval (surf_deg s) v a b c = seen s theta (rot_z (- atan2 x y) (a, b, c))) /\
  forall eps low high r z, sqrt (x ^ 2 + y ^ 2) < 1 + r -> 0 < z -> exists sT, starry_solution eps low high (surf_deg s) (sqrt (x ^ 2 + y ^ 2)) r = Ok sT /\
  surface_light_curve as_euler eps low high A2 s (Some r) (Some x) (Some y) (Some z) theta =
  Ok (s_amplitude s * bigsum (ncoef (surf_deg s)) (fun n => v n * nth n (vec_mat (ncoef (surf_deg s)) sT (A2 (surf_deg s))) 0) * (PI / ld_flux (s_u s))).
Proof using Hz Hy.
  intros H0. destruct (turned_poly theta (atan2 x y)) as (ry & p_u & p_y & p & v & E0 & E1 & R1 & E2 & _ & E3 & _ & V & P). exists v. split; [exact V|]. intros eps low high r z Hb Hz'.
  unfold surface_light_curve. destruct (surf_ydeg s =? 0)%nat eqn:E; [apply Nat.eqb_eq in E; contradiction|]. rewrite (geometry_front r x y z Hb Hz'). cbn [theta_z_of og_theta_z design_matrix og_b og_r og_occ].
  unfold starry_solution at 2. destruct (surf_deg s =? 0)%nat eqn:E'; [apply Nat.eqb_eq in E'; unfold surf_deg in E'; lia|]. cbn [rbind where_].
  eexists. split; [unfold starry_solution; rewrite E'; reflexivity|]. rewrite E0. cbn [rbind]. unfold flux_of. rewrite E1. cbn [rbind]. rewrite E2. cbn [rbind]. rewrite E3. cbn [rbind]. rewrite (ld_norm_ok s p_u R1). cbn [rbind].
  rewrite P by apply vec_mat_length. reflexivity.
Qed.
Lemma turned_green D v theta x y : right_inverse ((D + 1) * (D + 1)) (A2_inv (Z.of_nat D)) (A2 D) ->
  (forall a b c, on_sphere a b c -> dense_eval D v a b c = seen s theta (rot_z (- atan2 x y) (a, b, c))) -> green_coefficients D (green_of D (A2 D) v) (turned x y (seen s theta)).
Proof.
  intros H V. apply (green_coefficients_ext _ _ (fun a b => dense_eval D v a b (zdisk a b))); [|now apply green_of_curl]. intros a b Hd. rewrite V by (apply GreenProof.zdisk_sphere, Hd). reflexivity.
Qed.
Theorem transit_flux theta x y : surf_ydeg s <> 0%nat -> right_inverse (ncoef (surf_deg s)) (A2_inv (Z.of_nat (surf_deg s))) (A2 (surf_deg s)) ->
  exists g, green_coefficients (surf_deg s) g (turned x y (seen s theta)) /\
  forall eps low high r z, let b := sqrt (x ^ 2 + y ^ 2) in 0 < eps -> 0 <= r -> b < 1 + r -> r < 1 + b -> 0 < z -> clear_of_guards eps high b r ->
  surface_light_curve as_euler eps low high A2 s (Some r) (Some x) (Some y) (Some z) theta =
  Ok (s_amplitude s * (unhidden_flux x y r (seen s theta) + edge_errors (surf_deg s) g low high b r) * (PI / ld_flux (s_u s))).
Proof using Hz Hy.
  intros H0 HA. destruct (lc_front theta x y H0) as (v & V & P). exists (green_of (surf_deg s) (A2 (surf_deg s)) v). split; [apply turned_green; assumption|].
  intros eps low high r z b He Hr H1 H2 Hz' G. destruct (P eps low high r z H1 Hz') as (sT & ES & EL). fold b in ES. rewrite EL. do 3 f_equal.
  assert (W := design_partial eps low high (A2 (surf_deg s)) (surf_deg s) b r v sT HA He (sqrt_pos _) Hr H1 H2 G ES). fold (ncoef (surf_deg s)) in W.
  apply (vis_ext_in b r _ (fun a c => seen s theta (rot_z (- atan2 x y) (a, c, zdisk a c)))) in W. 2:{ intros a c Hd _. apply V, GreenProof.zdisk_sphere, Hd. }
  apply around_rot in W. unfold b in W at 1 2. destruct (polar_atan2 x y) as [-> ->] in W. unfold unhidden_flux. rewrite W. ring.
Qed.
Theorem eclipse_flux theta x y eps low high r z : surf_ydeg s <> 0%nat -> let b := sqrt (x ^ 2 + y ^ 2) in 1 + b <= r -> ~ (x = 0 /\ y = 0 /\ r = 1) -> 0 < z ->
  surface_light_curve as_euler eps low high A2 s (Some r) (Some x) (Some y) (Some z) theta = Ok 0.
Proof using Hz Hy.
  intros H0 b H1 N Hz'. assert (B0 : 0 <= b) by apply sqrt_pos. destruct (lc_front theta x y H0) as (v & V & P). destruct (P eps low high r z ltac:(fold b; lra) Hz') as (sT & ES & EL). fold b in ES. rewrite EL. f_equal.
  unfold ncoef. rewrite (design_hidden eps low high (A2 (surf_deg s)) (surf_deg s) b r v sT B0 H1) by (exact ES || (intros [A B]; apply N; unfold b in A; apply sqrt_eq_0 in A; [destruct (sumsq_0 _ _ A); auto|nra])). ring.
Qed.
Theorem centred_flux theta eps low high z : surf_ydeg s <> 0%nat -> right_inverse (ncoef (surf_deg s)) (A2_inv (Z.of_nat (surf_deg s))) (A2 (surf_deg s)) -> 0 < z ->
  surface_light_curve as_euler eps low high A2 s (Some 1) (Some 0) (Some 0) (Some z) theta = Ok (s_amplitude s * visible_flux (seen s theta) * (PI / ld_flux (s_u s))).
Proof using Hz Hy.
  intros H0 HA Hz'. assert (B0 : sqrt (0 ^ 2 + 0 ^ 2) = 0) by (replace (0 ^ 2 + 0 ^ 2) with 0 by ring; apply sqrt_0). destruct (lc_front theta 0 0 H0) as (v & V & P). destruct (P eps low high 1 z ltac:(rewrite B0; lra) Hz') as (sT & ES & EL). rewrite B0 in ES. rewrite EL. do 3 f_equal.
  unfold ncoef in *. rewrite (design_centred eps low high (A2 (surf_deg s)) (surf_deg s) v sT HA ES). unfold visible_flux. apply disk_ext_in. intros a c Hd. rewrite V by (apply GreenProof.zdisk_sphere, Hd). rewrite atan2_0_0, Ropp_0, rot_z_0. reflexivity.
Qed.
(** ** radial velocities *)
Variable veq : R.
Hypothesis Hv : surf_veq s = Ok veq.
Theorem transit_rv theta x y : s_shear s = None -> ld_flux (s_u s) <> 0 -> right_inverse (ncoef (surf_deg s + 1)) (A2_inv (Z.of_nat (surf_deg s + 1))) (A2 (surf_deg s + 1)%nat) ->
  exists g h, green_coefficients (surf_deg s + 1) g (turned x y (fun p => seen s theta p * rec_ s veq p)) /\ green_coefficients (surf_deg s + 1) h (turned x y (seen s theta)) /\
  forall eps low high r z, let b := sqrt (x ^ 2 + y ^ 2) in 0 < eps -> 0 <= r -> b < 1 + r -> r < 1 + b -> 0 < z -> clear_of_guards eps high b r ->
  let light := unhidden_flux x y r (seen s theta) + edge_errors (surf_deg s + 1) h low high b r in light <> 0 ->
  surface_radial_velocity as_euler eps low high A2 s (Some r) (Some x) (Some y) (Some z) theta =
  Ok (s_amplitude s * ((unhidden_flux x y r (fun p => seen s theta p * rec_ s veq p) + edge_errors (surf_deg s + 1) g low high b r) / light)).
Proof using Hz Hy Hv.
  intros Hs Hl HA. set (tz := atan2 x y). set (D := (surf_deg s + 1)%nat) in *. set (N := ncoef D).
  destruct (turned_poly theta tz) as (ry & p_u & p_y & p & v & E0 & E1 & R1 & E2 & R2 & E3 & HS & V & P).
  destruct (rv_poly s veq (- tz)) as (yr & p_rv & E4 & E5 & R5). destruct (repr_mul _ _ _ _ _ _ R2 R5) as (q & E6 & R6). destruct (repr_mul _ _ _ _ _ _ R6 R1) as (q' & E7 & R7).
  destruct (repr_dot _ _ _ R7) as (w & W & PW). replace (surf_ydeg s + 1 + surf_udeg s)%nat with D in W, PW by (unfold D, surf_deg; lia).
  set (vp := fun n => if Nat.ltb n ((surf_deg s + 1) * (surf_deg s + 1)) then v n else 0).
  assert (VP : forall a b c, on_sphere a b c -> dense_eval D vp a b c = seen s theta (rot_z (- tz) (a, b, c))) by (intros a b c Hsp; unfold vp; rewrite dense_pad by (unfold D; lia); apply V, Hsp).
  assert (WP : forall a b c, on_sphere a b c -> dense_eval D w a b c = seen s theta (rot_z (- tz) (a, b, c)) * rec_ s veq (rot_z (- tz) (a, b, c))) by (intros a b c Hsp; rewrite W by exact Hsp; rewrite <- HS by exact Hsp; ring).
  exists (green_of D (A2 D) w), (green_of D (A2 D) vp).
  split; [apply (green_coefficients_ext _ _ (fun a b => dense_eval D w a b (zdisk a b))); [intros a b Hd; rewrite WP by (apply GreenProof.zdisk_sphere, Hd); reflexivity|now apply green_of_curl]|].
  split; [apply turned_green; assumption|].
  intros eps low high r z b He Hr H1 H2 Hz' G light HL.
  unfold surface_radial_velocity, surf_vdeg. rewrite Hs. cbv zeta. rewrite (geometry_front r x y z H1 Hz'). cbn [theta_z_of og_theta_z design_matrix og_b og_r og_occ]. fold D. fold tz. fold b.
  destruct (starry_solution eps low high D b r) as [sT|] eqn:ES. 2:{ unfold starry_solution in ES. destruct (D =? 0)%nat eqn:E; [apply Nat.eqb_eq in E; unfold D in E; lia|discriminate]. }
  cbn [rbind where_]. fold (ncoef D). fold N. rewrite E0. cbn [rbind]. rewrite E1. cbn [rbind]. rewrite E2. cbn [rbind]. rewrite (ld_norm_ok s p_u R1). cbn [rbind]. rewrite Hv. cbn [rbind]. rewrite E4. cbn [rbind]. rewrite E5. cbn [rbind]. rewrite E6. cbn [rbind]. rewrite E7. cbn [rbind].
  rewrite PW by apply vec_mat_length. cbn [rbind]. rewrite E3. cbn [rbind].
  assert (ND : (ncoef (surf_deg s) <= N)%nat) by (unfold N, ncoef, D; nia).
  rewrite P. 2:{ rewrite firstn_length, vec_mat_length. unfold ncoef in *. lia. } cbn [rbind].
  assert (X1 := design_partial eps low high (A2 D) D b r w sT HA He (sqrt_pos _) Hr H1 H2 G ES). assert (X2 := design_partial eps low high (A2 D) D b r vp sT HA He (sqrt_pos _) Hr H1 H2 G ES).
  apply (vis_ext_in b r _ (fun a c => (fun p => seen s theta p * rec_ s veq p) (rot_z (- tz) (a, c, zdisk a c)))) in X1. 2:{ intros a c Hd _. apply WP, GreenProof.zdisk_sphere, Hd. }
  apply (vis_ext_in b r _ (fun a c => seen s theta (rot_z (- tz) (a, c, zdisk a c)))) in X2. 2:{ intros a c Hd _. apply VP, GreenProof.zdisk_sphere, Hd. }
  apply (around_rot (fun p => seen s theta p * rec_ s veq p)) in X1. apply (around_rot (seen s theta)) in X2. assert (Q1 : b * sin tz = x) by exact (proj1 (polar_atan2 x y)). assert (Q2 : b * cos tz = y) by exact (proj2 (polar_atan2 x y)). rewrite Q1, Q2 in X1, X2.
  assert (F2 : bigsum (ncoef (surf_deg s)) (fun n => v n * nth n (firstn (D * D) (vec_mat N sT (A2 D))) 0) = light).
  { unfold light, unhidden_flux. rewrite X2. fold (ncoef D). fold N. ring_simplify. unfold vp, N, ncoef. rewrite (dot_pad (surf_deg s) D v (fun n => nth n (vec_mat ((D + 1) * (D + 1)) sT (A2 D)) 0)) by (unfold D; lia).
    apply bigsum_ext. intros n Hn. rewrite nth_firstn_lt by exact Hn. reflexivity. }
  assert (F1 : bigsum N (fun n => w n * nth n (vec_mat N sT (A2 D)) 0) = unhidden_flux x y r (fun p => seen s theta p * rec_ s veq p) + edge_errors D (green_of D (A2 D) w) low high b r).
  { unfold unhidden_flux. rewrite X1. unfold N, ncoef. ring. }
  rewrite F2. fold N. rewrite F1. f_equal. pose proof PI_RGT_0. field. split; [exact HL|split; [exact Hl|lra]].
Qed.
End Transit.
Lemma A2_exists : exists A2 : nat -> matrix, forall D, (D <= 7)%nat -> right_inverse (ncoef D) (A2_inv (Z.of_nat D)) (A2 D).
Proof.
  assert (H : forall D, exists inv : matrix, right_inverse (ncoef D) (A2_inv (Z.of_nat D)) inv).
  { intros D. unfold ncoef. set (N := ((D + 1) * (D + 1))%nat). destruct (finite_choice (fun c d => forall r, (r < N)%nat -> bigsum N (fun k => A2_inv (Z.of_nat D) (Z.of_nat r) (Z.of_nat k) * d k) = if Nat.eqb r c then 1 else 0) N) as [f Hf].
    { intros c _. destruct (Sp_all D (fun r => if Nat.eqb r c then 1 else 0)) as (d & Hd). exists d. exact Hd. }
    exists (fun k c => f (Z.to_nat c) (Z.to_nat k)). intros r c Hr Hc. rewrite <- (Hf c Hc r Hr). apply bigsum_ext. intros k _. rewrite !Nat2Z.id. reflexivity. }
  assert (K : forall n, exists A2 : nat -> matrix, forall D, (D < n)%nat -> right_inverse (ncoef D) (A2_inv (Z.of_nat D)) (A2 D)).
  { induction n as [|n (A2 & IH)]; [exists (fun _ _ _ => 0); intros; lia|]. destruct (H n) as [B HB]. exists (fun D => if Nat.eqb D n then B else A2 D). intros D HD. destruct (Nat.eqb_spec D n) as [->|N]; [exact HB|apply IH; lia]. }
  destruct (K 8%nat) as (A2 & HA). exists A2. intros D HD. apply HA. lia.
Qed.
Lemma edge_errors_bound D g low high b r delta : (forall l nu, (l <= D)%nat -> (nu <= 2 * l)%nat -> Rabs (green_error (green_rule low high nu) b r l nu) <= delta) ->
  Rabs (edge_errors D g low high b r) <= bigsum ((D + 1) * (D + 1)) (fun n => Rabs (g n)) * delta.
Proof.
  intros H. rewrite (bigsum_square D (fun n => Rabs (g n))). unfold edge_errors. apply Rle_trans with (1 := bigsum_abs _ _). rewrite Rmult_comm, <- bigsum_scal. apply bigsum_le. intros l Hl.
  apply Rle_trans with (1 := bigsum_abs _ _). rewrite <- bigsum_scal. apply bigsum_le. intros nu Hnu. rewrite Rabs_mult, Rmult_comm. apply Rmult_le_compat_r; [apply Rabs_pos|]. apply H; lia.
Qed.
Lemma transit_error as_euler s A2 theta x y : zyz_euler as_euler -> wf_ylm (s_y s) -> surf_ydeg s <> 0%nat -> right_inverse (ncoef (surf_deg s)) (A2_inv (Z.of_nat (surf_deg s))) (A2 (surf_deg s)) ->
  exists C, forall eps low high r z delta, let b := sqrt (x ^ 2 + y ^ 2) in 0 < eps -> 0 <= r -> b < 1 + r -> r < 1 + b -> 0 < z -> clear_of_guards eps high b r ->
  (forall l nu, (l <= surf_deg s)%nat -> (nu <= 2 * l)%nat -> Rabs (green_error (green_rule low high nu) b r l nu) <= delta) ->
  exists f, surface_light_curve as_euler eps low high A2 s (Some r) (Some x) (Some y) (Some z) theta = Ok f /\
  Rabs (f - s_amplitude s * unhidden_flux x y r (seen s theta) * (PI / ld_flux (s_u s))) <= C * delta.
Proof.
  intros Hz Hy H0 HA. destruct (transit_flux as_euler Hz s Hy A2 theta x y H0 HA) as (g & _ & H). exists (Rabs (s_amplitude s) * Rabs (PI / ld_flux (s_u s)) * bigsum ((surf_deg s + 1) * (surf_deg s + 1)) (fun n => Rabs (g n))).
  intros eps low high r z delta b He Hr H1 H2 Hz' G HE. eexists. split; [exact (H eps low high r z He Hr H1 H2 Hz' G)|]. fold b.
  match goal with |- Rabs ?a <= _ => replace a with (s_amplitude s * (PI / ld_flux (s_u s)) * edge_errors (surf_deg s) g low high b r) by ring end.
  rewrite !Rabs_mult. rewrite !Rmult_assoc. apply Rmult_le_compat_l; [apply Rabs_pos|]. apply Rmult_le_compat_l; [apply Rabs_pos|]. apply edge_errors_bound, HE.
Qed.
