(** Occultations of maps: the solution vector, light curves and radial velocities against visible integrals. *)
From Coq Require Import Reals Lra Lia ZArith List Bool Arith Psatz.
From Coquelicot Require Import Coquelicot.
From Verif Require Import Base.RealAux Base.Analysis Base.Dict Model.Poly Model.Basis Model.Rotation Model.Solution Model.SolutionVector Model.Ylm Model.RvMap Model.Surface Model.StarryLightCurve
  Spec.PolySpec Spec.HarmonicSpec Spec.RotationSpec Spec.BasisSpec Spec.DiskSpec Spec.OccultSpec Spec.YlmSpec Spec.SurfaceSpec Spec.SkySpec
  Proof.PolyProof Proof.BasisProof Proof.GreenProof Proof.GreenInv Proof.LimbDarkGreen Proof.LimbDarkArea Proof.LimbDarkProof Proof.Ray Proof.Edge Proof.Occult Proof.Monomial Proof.GreenLine Proof.GreenFamilies Proof.SolutionGreen Proof.SolutionQuad
  Proof.DiskProof Proof.DiskRot Proof.RTProof Proof.YlmMore Proof.Euler Proof.SurfaceProof Proof.StarryProof Proof.DopplerProof.
Import ListNotations.
Open Scope R_scope.

Notation gfun l nu := (fun x y => dict_eval (gtilde (Z.of_nat (l * l + nu))) x y (zdisk x y)).
(** ** one entry *)
Lemma vis_ext_in b r f g v : (forall x y, in_disk x y -> 0 < x ^ 2 + y ^ 2 -> f x y = g x y) -> vis b r f v -> vis b r g v.
Proof.
  intros E (K & K1 & K2). exists K. split; [|exact K2]. intros phi. apply (rint_ext_v _ _ _ _ _ (K1 phi)). intros rho. rewrite Rmin_left, Rmax_right by lra. intros Hr.
  unfold unhidden_by. destruct (Rlt_dec _ _); [reflexivity|]. assert (Q : (rho * sin phi) ^ 2 + (rho * cos phi) ^ 2 = rho ^ 2).
  { transitivity (rho ^ 2 * (sin phi ^ 2 + cos phi ^ 2)); [ring|]. rewrite limb_sq. ring. }
  rewrite E; [reflexivity| |]; [unfold in_disk|]; rewrite Q; nra.
Qed.
Lemma vis_hidden b r f : 0 <= b -> 1 + b <= r -> vis b r f 0.
Proof.
  intros Hb Hr. exists (fun _ => 0). split; [|split].
  - intros phi. apply is_RInt_zero_on. intros rho. rewrite Rmin_left, Rmax_right by lra. intros Hrho. unfold unhidden_by. destruct (Rlt_dec _ _) as [L|L]; [ring|]. exfalso. apply L.
    assert (Q := limb_sq phi). assert (C := COS_bound phi). replace ((rho * sin phi - 0) ^ 2 + (rho * cos phi - b) ^ 2) with (rho ^ 2 * (sin phi ^ 2 + cos phi ^ 2) - 2 * b * rho * cos phi + b ^ 2) by ring. rewrite Q.
    assert (A : - (2 * b * rho * cos phi) <= 2 * b * rho). { assert (0 <= 2 * b * rho * (1 + cos phi)); [|lra]. apply Rmult_le_pos; [|lra]. nra. }
    nra.
  - intros. apply cont_const.
  - apply is_RInt_zero_on. reflexivity.
Qed.
Lemma vis_free b r f : 0 <= r -> 1 + r <= b -> forall v, vis 0 0 f v -> vis b r f v.
Proof.
  intros Hr Hb v (K & K1 & K2). exists K. split; [|exact K2]. intros phi. apply (rint_ext_v _ _ _ _ _ (K1 phi)). intros rho. rewrite Rmin_left, Rmax_right by lra. intros Hrho.
  assert (Q := limb_sq phi). assert (C := COS_bound phi). f_equal. unfold unhidden_by. destruct (Rlt_dec _ _) as [L|L]; [exfalso; nra|]. destruct (Rlt_dec _ _) as [M|M]; [exfalso|reflexivity].
  replace ((rho * sin phi - 0) ^ 2 + (rho * cos phi - b) ^ 2) with (rho ^ 2 * (sin phi ^ 2 + cos phi ^ 2) - 2 * b * rho * cos phi + b ^ 2) in M by ring. rewrite Q in M.
  assert (A : 2 * b * rho * cos phi <= 2 * b * rho). { assert (0 <= 2 * b * rho * (1 - cos phi)); [|lra]. apply Rmult_le_pos; [|lra]. nra. }
  nra.
Qed.
Lemma contact_00 : contact 0 0 PI 0.
Proof.
  assert (P := PI_RGT_0). split; [lra|split; [lra|split; [|split; [|left; auto]]]].
  - intros. unfold erho2. lra.
  - intros. lra.
Qed.
Lemma curl_unique G x y u v : is_curl G x y u -> is_curl G x y v -> u = v.
Proof.
  intros (a & c & A & C & ->) (a' & c' & A' & C' & ->). assert (a = a') as ->. { rewrite <- (is_derive_unique _ _ _ A). apply is_derive_unique, A'. }
  assert (c = c') as ->. { rewrite <- (is_derive_unique _ _ _ C). apply is_derive_unique, C'. } reflexivity.
Qed.
Lemma green_function_eq l nu f x y : (nu <= 2 * l)%nat -> green_function l nu f -> in_disk x y -> 0 < x ^ 2 + y ^ 2 -> gfun l nu x y = f x y.
Proof. intros Hnu H Hd H0. apply (curl_unique (green_field l nu) x y); [apply green_curl; auto|apply H; auto]. Qed.
Lemma gfun_green l nu : (nu <= 2 * l)%nat -> green_function l nu (gfun l nu).
Proof. intros Hnu x y Hd H0. apply green_curl; auto. Qed.

Lemma pint_k0 eps low high b r l nu : pint_entry eps low high b r 0 l nu = 0.
Proof.
  assert (Z : forall q f, p_sum 0 q f = 0) by (intros; unfold p_sum; ring). unfold pint_entry. cbv zeta. rewrite !Z.
  repeat match goal with |- (if ?c then _ else _) = 0 => destruct c; [reflexivity|] end. reflexivity.
Qed.
Lemma q_full l nu : (nu <= 2 * l)%nat -> vis 0 0 (gfun l nu) (q_entry (/ 2 * PI - 0) l nu).
Proof.
  intros Hnu. assert (V := green_vis l nu 0 0 PI 0 Hnu (Rle_refl 0) (Rle_refl 0) contact_00). apply (vis_val _ _ _ _ _ V). rewrite rint_0 by (intros; apply edge_pair_r0). apply Rminus_0_r.
Qed.
Lemma q_none l nu : (nu <= 2 * l)%nat -> q_entry (/ 2 * PI - PI) l nu = 0.
Proof.
  intros Hnu. unfold q_entry. cbv zeta. destruct (_ && _)%bool; [field|]. destruct (_ && _)%bool eqn:E; [|reflexivity]. apply andb_prop in E. destruct E as [E1 E2]. apply Nat.eqb_eq in E1, E2.
  set (h := ((2 * l - nu) / 2)%nat) in *. assert (Hh : h = (2 * (h / 2))%nat) by (pose proof (Nat.div_mod h 2 ltac:(lia)); lia). rewrite Hh. replace (2 * (h / 2) + 2)%nat with (2 * S (h / 2))%nat by lia.
  replace (/ 2 * PI - PI) with (- (PI / 2)) by field. apply q_get_0.
Qed.
(** ** the regimes *)
Lemma sol_clear eps low high b r l nu : 0 <= b -> 0 <= r -> 1 + r <= b -> sol_entry eps low high b r l nu = q_entry (/ 2 * PI - 0) l nu.
Proof.
  intros Hb Hr H. unfold sol_entry. rewrite !Rabs_pos_eq by assumption. assert (N : ~ partial_occ b r) by (unfold partial_occ; lra).
  rewrite (sol_kappas_ld _ _ _ _ _ (kappas_other b r N)). replace (atan2 0 (b² + (r - 1) * (r + 1))) with 0.
  - rewrite pint_k0. replace (atan2 0 (b² - (r - 1) * (r + 1))) with 0; [ring|]. symmetry. apply atan2_0_pos. unfold Rsqr. nra.
  - symmetry. destruct (Rlt_dec 0 (b² + (r - 1) * (r + 1))) as [L|L]; [now apply atan2_0_pos|]. replace (b² + (r - 1) * (r + 1)) with 0; [apply atan2_0_0|]. unfold Rsqr in *. nra.
Qed.
Lemma sol_hidden eps low high b r l nu : (nu <= 2 * l)%nat -> 0 <= b -> 1 + b <= r -> ~ (b = 0 /\ r = 1) -> sol_entry eps low high b r l nu = 0.
Proof.
  intros Hnu Hb Hr NE. unfold sol_entry. rewrite !Rabs_pos_eq by lra. assert (N : ~ partial_occ b r). { unfold partial_occ. rewrite Rabs_left1 by lra. lra. }
  rewrite (sol_kappas_ld _ _ _ _ _ (kappas_other b r N)). replace (atan2 0 (b² + (r - 1) * (r + 1))) with 0.
  - rewrite pint_k0. replace (atan2 0 (b² - (r - 1) * (r + 1))) with PI; [rewrite q_none by exact Hnu; ring|]. symmetry. apply atan2_0_neg. unfold Rsqr. destruct (Req_dec b 0) as [->|B]; [assert (1 < r) by (destruct (Rle_lt_or_eq_dec _ _ Hr) as [|E]; [lra|exfalso; apply NE; split; lra]); nra|assert (0 < b) by lra; nra].
  - symmetry. destruct (Rlt_dec 0 (b² + (r - 1) * (r + 1))) as [L|L]; [now apply atan2_0_pos|]. replace (b² + (r - 1) * (r + 1)) with 0; [apply atan2_0_0|]. unfold Rsqr in *. nra.
Qed.
Lemma sol_centred eps low high l nu : sol_entry eps low high 0 1 l nu = q_entry (/ 2 * PI - 0) l nu.
Proof.
  unfold sol_entry. rewrite !Rabs_pos_eq by lra. assert (N : ~ partial_occ 0 1). { unfold partial_occ. replace (1 - 1) with 0 by ring. rewrite Rabs_R0. lra. }
  rewrite (sol_kappas_ld _ _ _ _ _ (kappas_other 0 1 N)). replace (0² + (1 - 1) * (1 + 1)) with 0 by (unfold Rsqr; ring). replace (0² - (1 - 1) * (1 + 1)) with 0 by (unfold Rsqr; ring). rewrite atan2_0_0, pint_k0. ring.
Qed.
Lemma sol_partial eps low high b r l nu : (nu <= 2 * l)%nat -> 0 < eps -> 0 <= b -> 0 <= r -> b < 1 + r -> r < 1 + b -> clear_of_guards eps high b r ->
  vis b r (gfun l nu) (sol_entry eps low high b r l nu - green_error (green_rule low high nu) b r l nu).
Proof.
  intros Hnu He Hb Hr H1 H2 G. destruct (contact_ok b r Hb Hr H1 H2) as (A & k0 & k1 & EK & CT & _ & E0 & _). assert (V := green_vis l nu b r k0 k1 Hnu Hb Hr CT).
  apply (vis_val _ _ _ _ _ V). unfold sol_entry. rewrite !Rabs_pos_eq by assumption. rewrite (sol_kappas_ld _ _ _ _ _ EK). unfold clear_of_guards in G. rewrite <- E0 in G.
  rewrite (pint_quad eps low high b r l nu k0 k1 Hnu He Hb Hr H1 H2 CT G). unfold green_error. rewrite <- E0. ring.
Qed.
(** ** the solution vector *)
Lemma sol_length eps low high D b r s : starry_solution eps low high D b r = Ok s -> length s = ((D + 1) * (D + 1))%nat.
Proof.
  unfold starry_solution. destruct (D =? 0)%nat; [discriminate|]. intros E. injection E as <-.
  replace (D + 1)%nat with (S D) by lia. generalize (S D) as n. intros n. induction n as [|n IH]; [reflexivity|]. rewrite seq_S, flat_map_app, app_length, IH. cbn [flat_map Nat.add]. rewrite app_length, map_length, seq_length. cbn [length]. lia.
Qed.
Lemma sol_nth_gen (F : nat -> nat -> R) n l nu : (l < n)%nat -> (nu <= 2 * l)%nat -> nth (l * l + nu) (flat_map (fun l => map (F l) (seq 0 (2 * l + 1))) (seq 0 n)) 0 = F l nu.
Proof.
  intros Hl Hnu. assert (LN : forall m, length (flat_map (fun l => map (F l) (seq 0 (2 * l + 1))) (seq 0 m)) = (m * m)%nat).
  { induction m as [|m IH]; [reflexivity|]. rewrite seq_S, flat_map_app, app_length, IH. cbn [flat_map Nat.add]. rewrite app_length, map_length, seq_length. cbn [length]. lia. }
  induction n as [|n IH]; [lia|]. rewrite seq_S, flat_map_app. cbn [flat_map Nat.add]. rewrite app_nil_r. destruct (Nat.eq_dec l n) as [->|N].
  - rewrite app_nth2 by (rewrite LN; lia). rewrite LN. replace (n * n + nu - n * n)%nat with nu by lia. apply nth_map_seq. lia.
  - rewrite app_nth1 by (rewrite LN; nia). apply IH. lia.
Qed.
Lemma sol_nth eps low high D b r s l nu : starry_solution eps low high D b r = Ok s -> (l <= D)%nat -> (nu <= 2 * l)%nat -> nth (l * l + nu) s 0 = sol_entry eps low high b r l nu.
Proof.
  unfold starry_solution. destruct (D =? 0)%nat; [discriminate|]. intros E Hl Hnu. injection E as <-. apply (sol_nth_gen (fun l nu => sol_entry eps low high b r l nu)); lia.
Qed.
Lemma sol_abs eps low high b r l nu : sol_entry eps low high b r l nu = sol_entry eps low high (Rabs b) (Rabs r) l nu.
Proof. unfold sol_entry. rewrite !Rabs_Rabsolu. reflexivity. Qed.
Theorem entry_partial eps low high D b r s l nu f : starry_solution eps low high D b r = Ok s -> (l <= D)%nat -> (nu <= 2 * l)%nat -> green_function l nu f -> 0 < eps ->
  Rabs b < 1 + Rabs r -> Rabs r < 1 + Rabs b -> clear_of_guards eps high (Rabs b) (Rabs r) ->
  nth (l * l + nu) s 0 = flux_around 0 (Rabs b) (Rabs r) f + green_error (green_rule low high nu) (Rabs b) (Rabs r) l nu.
Proof.
  intros E Hl Hnu Hf He H1 H2 G. rewrite (sol_nth _ _ _ _ _ _ _ _ _ E Hl Hnu), sol_abs. assert (V := sol_partial eps low high _ _ l nu Hnu He (Rabs_pos b) (Rabs_pos r) H1 H2 G).
  apply (vis_ext_in _ _ _ f) in V. { destruct (vis_disk _ _ _ _ V) as [_ ->]. ring. } intros x y Hd H0. apply green_function_eq; auto.
Qed.
Theorem entry_clear eps low high D b r s l nu f : starry_solution eps low high D b r = Ok s -> (l <= D)%nat -> (nu <= 2 * l)%nat -> green_function l nu f ->
  1 + Rabs r <= Rabs b -> nth (l * l + nu) s 0 = disk_integral f.
Proof.
  intros E Hl Hnu Hf H1. rewrite (sol_nth _ _ _ _ _ _ _ _ _ E Hl Hnu), sol_abs, sol_clear by (auto using Rabs_pos). assert (V := q_full l nu Hnu).
  apply (vis_ext_in _ _ _ f) in V. { destruct (vis_disk _ _ _ _ V) as [_ <-]. unfold flux_around. apply disk_ext_in. intros x y _. unfold unhidden_by. destruct (Rlt_dec _ _) as [L|L]; [exfalso; nra|reflexivity]. } intros x y Hd H0. apply green_function_eq; auto.
Qed.
Theorem entry_hidden eps low high D b r s l nu : starry_solution eps low high D b r = Ok s -> (l <= D)%nat -> (nu <= 2 * l)%nat ->
  1 + Rabs b <= Rabs r -> ~ (b = 0 /\ Rabs r = 1) -> nth (l * l + nu) s 0 = 0.
Proof.
  intros E Hl Hnu H1 N. rewrite (sol_nth _ _ _ _ _ _ _ _ _ E Hl Hnu), sol_abs. apply sol_hidden; auto using Rabs_pos. intros [A B]. apply N. split; [|exact B]. destruct (Req_dec b 0) as [|Q]; [assumption|]. apply Rabs_no_R0 in Q. contradiction.
Qed.
Theorem entry_centred eps low high D s l nu f r : starry_solution eps low high D 0 r = Ok s -> Rabs r = 1 -> (l <= D)%nat -> (nu <= 2 * l)%nat -> green_function l nu f -> nth (l * l + nu) s 0 = disk_integral f.
Proof.
  intros E Hr Hl Hnu Hf. rewrite (sol_nth _ _ _ _ _ _ _ _ _ E Hl Hnu), sol_abs, Hr, Rabs_R0, sol_centred. assert (V := q_full l nu Hnu).
  apply (vis_ext_in _ _ _ f) in V. { destruct (vis_disk _ _ _ _ V) as [_ <-]. unfold flux_around. apply disk_ext_in. intros x y _. unfold unhidden_by. destruct (Rlt_dec _ _) as [L|L]; [exfalso; nra|reflexivity]. } intros x y Hd H0. apply green_function_eq; auto.
Qed.
