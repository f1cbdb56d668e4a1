(** Gradients of occulted spherical-harmonic light curves: rotations, products of polynomials and fluxes. *)
From Coq Require Import Reals List Bool Arith ZArith Lia Lra Psatz.
From Coquelicot Require Import Hierarchy Derive Continuity Rbar Rcomplements ElemFct AutoDerive.
From Verif Require Import Base.RealAux Base.Dict Model.LimbDark Model.Poly Model.Basis Model.S2fft Model.Rotation Model.Solution Model.SolutionVector Model.Ylm Model.RvMap Model.Surface Model.StarryLightCurve Model.AutoDiff Model.LightCurveGrad Model.TransitGrad Model.StarryGrad.
From Verif Require Import Spec.LimbDarkSpec Spec.OccultSpec Spec.AutoDiffSpec Spec.StarryGradSpec.
From Verif Require Import Proof.AutoDiff Proof.Occult Proof.LightCurveGrad Proof.LightCurveDeriv Proof.LightCurveTangent Proof.LightCurveGradFacts Proof.TransitGrad Proof.StarryGrad.
Import ListNotations.
Local Open Scope R_scope.

(** ** lists *)
Section Lists.
Variable s : R.
Notation TL f d := (tracks_list f s d).
Lemma TL_ext f g ds : (forall z, f z = g z) -> TL f ds -> TL g ds.
Proof. intros H (fs & HF & E). exists fs. split; [exact HF|]. intros z. now rewrite <- H. Qed.
Lemma TL_length f ds z : TL f ds -> length (f z) = length ds.
Proof. intros (fs & HF & E). rewrite E, map_length. symmetry. exact (trackl_length _ _ _ HF). Qed.
Lemma TL_nth f ds n : TL f ds -> tracks (fun z => nth n (f z) 0) s (nth n ds (cst 0)).
Proof. intros (fs & HF & E). apply (tracks_ext' (fun z => nth n (at_ fs z) 0)); [intros z; now rewrite E|]. now apply trackl_nth. Qed.
Lemma TL_nil : TL (fun _ => []) []. Proof. exists []. split; [constructor|reflexivity]. Qed.
Lemma TL_cons g f x ds : tracks g s x -> TL f ds -> TL (fun z => g z :: f z) (x :: ds).
Proof. intros Hg (fs & HF & E). exists (g :: fs). split; [now constructor|]. intros z. cbn. now rewrite E. Qed.
Lemma TL_app f g ds es : TL f ds -> TL g es -> TL (fun z => f z ++ g z) (ds ++ es).
Proof. intros (fs & HF & E) (gs & HG & E'). exists (fs ++ gs). split; [now apply List.Forall2_app|]. intros z. rewrite map_app. now rewrite E, E'. Qed.
Lemma TL_map {A} (l : list A) (f : A -> R -> R) d : (forall a, tracks (f a) s (d a)) -> TL (fun z => map (fun a => f a z) l) (map d l).
Proof. intros H. induction l as [|a l IH]; [apply TL_nil|]. cbn [map]. now apply TL_cons. Qed.
Lemma TL_flat_map {A} (l : list A) (f : A -> R -> list R) d : (forall a, TL (f a) (d a)) -> TL (fun z => flat_map (fun a => f a z) l) (flat_map d l).
Proof. intros H. induction l as [|a l IH]; [apply TL_nil|]. cbn [flat_map]. now apply TL_app. Qed.
Lemma TL_cst l : TL (fun _ => l) (map cst l).
Proof. induction l as [|a l IH]; [apply TL_nil|]. cbn [map]. apply (TL_cons (fun _ => a) (fun _ => l)); [apply tracks_cst|exact IH]. Qed.
Lemma TL_repeat n : TL (fun _ => repeat 0 n) (repeat (cst 0) n).
Proof. induction n as [|n IH]; [apply TL_nil|]. cbn [repeat]. apply (TL_cons (fun _ => 0) (fun _ => repeat 0 n)); [apply tracks_cst|exact IH]. Qed.
Lemma TL_fold {A} (l : list A) (step : R -> list R -> A -> list R) stepd : (forall g ds a, TL g ds -> TL (fun z => step z (g z) a) (stepd ds a)) ->
  forall f ds, TL f ds -> TL (fun z => fold_left (step z) l (f z)) (fold_left stepd l ds).
Proof. intros H. induction l as [|a l IH]; intros f ds Hf; [exact Hf|]. cbn [fold_left]. now apply (IH (fun z => step z (f z) a)), H. Qed.
Lemma TL_upd f ds i g x : TL f ds -> tracks g s x -> TL (fun z => Rotation.upd (f z) i (g z)) (updl_d ds i x).
Proof.
  intros (fs & HF & E) Hg. apply (TL_ext (fun z => Rotation.upd (at_ fs z) i (g z))); [intros z; now rewrite E|]. clear E f. revert i.
  induction HF as [|h y fs ds Hh HF IH]; intros i; [apply TL_nil|]. destruct i as [|i].
  - change (TL (fun z => g z :: at_ fs z) (x :: ds)). apply TL_cons; [exact Hg|]. now exists fs.
  - change (TL (fun z => h z :: Rotation.upd (at_ fs z) i (g z)) (y :: updl_d ds i x)). apply TL_cons; [exact Hh|apply IH].
Qed.
Lemma TL_dot f g a b : TL f a -> TL g b -> tracks (fun z => dotp (f z) (g z)) s (ddot a b).
Proof. intros (fs & HF & E) (gs & HG & E'). apply (tracks_ext' (fun z => dotp (at_ fs z) (at_ gs z))); [intros z; now rewrite E, E'|]. now apply tracks_dot. Qed.
End Lists.
Notation TL f s d := (tracks_list f s d).

(** ** rotations about z *)
Definition angle (f : R -> R) (s : R) (x : D) : Prop := fin x (f s) /\ tracks (fun z => cos (f z)) s (dcos x) /\ tracks (fun z => sin (f z)) s (dsin x).
Lemma angle_tracks f s x : tracks f s x -> angle f s x.
Proof. intros H. split; [exact (tracks_fin _ _ _ H)|]. split; [now apply tracks_cos|now apply tracks_sin]. Qed.
Lemma angle_neg f s x : angle f s x -> angle (fun z => - f z) s (dneg x).
Proof.
  intros ((t & ->) & Hc & Hs). split; [now exists (- t)|]. split.
  - apply (tracks_ext' (fun z => cos (f z))); [intros z; now rewrite cos_neg|].
    replace (dcos (dneg (Some (f s, t)))) with (dcos (Some (f s, t))); [exact Hc|]. unfold dcos, dneg, lift1. rewrite cos_neg, sin_neg. do 2 f_equal. ring.
  - apply (tracks_ext' (fun z => - sin (f z))); [intros z; now rewrite sin_neg|].
    replace (dsin (dneg (Some (f s, t)))) with (dneg (dsin (Some (f s, t)))); [now apply tracks_neg|]. unfold dsin, dneg, lift1. rewrite cos_neg, sin_neg. do 2 f_equal. ring.
Qed.
Lemma TL_cheb s deg c x0 x1 cd x0d x1d : tracks c s cd -> tracks x0 s x0d -> tracks x1 s x1d -> TL (fun z => cheb_list deg (c z) (x0 z) (x1 z)) s (cheb_list_d deg cd x0d x1d).
Proof.
  intros Hc H0 H1. unfold cheb_list, cheb_list_d.
  apply (TL_fold s (seq 2 (deg - 1)) (fun z a n => a ++ [2 * nth (n - 1) a 0 * c z - nth (n - 2) a 0])).
  - intros g ds n Hg. apply TL_app; [exact Hg|]. apply (TL_cons s (fun z => 2 * nth (n - 1) (g z) 0 * c z - nth (n - 2) (g z) 0) (fun _ => [])); [|apply TL_nil].
    pose proof (TL_nth s g ds (n - 1) Hg). pose proof (TL_nth s g ds (n - 2) Hg). apply (tracks_sub (fun z => 2 * nth (n - 1) (g z) 0 * c z)); [|assumption].
    apply (tracks_mul (fun z => 2 * nth (n - 1) (g z) 0)); [|exact Hc]. apply (tracks_mul (fun _ => 2)); [apply tracks_cst|assumption].
  - apply (TL_cons s x0 (fun z => [x1 z])); [exact H0|]. apply (TL_cons s x1 (fun _ => [])); [exact H1|apply TL_nil].
Qed.
Lemma TL_order s deg nt ntd (neg : R -> R) negd : TL nt s ntd -> (forall g x, tracks g s x -> tracks (fun z => neg (g z)) s (negd x)) ->
  TL (fun z => order_list deg (nt z) neg) s (order_list_d deg ntd negd).
Proof.
  intros Hn Hneg. unfold order_list, order_list_d.
  apply (TL_flat_map s (seq 0 (deg + 1)) (fun ell z => map (fun m => neg (nth (Z.to_nat (- m)) (nt z) 0)) (zrange (- Z.of_nat ell) 0) ++ map (fun m => nth m (nt z) 0) (seq 0 (ell + 1)))).
  intros ell. apply TL_app.
  - apply (TL_map s (zrange (- Z.of_nat ell) 0) (fun m z => neg (nth (Z.to_nat (- m)) (nt z) 0))). intros m. apply (Hneg (fun z => nth (Z.to_nat (- m)) (nt z) 0)). now apply TL_nth.
  - apply (TL_map s (seq 0 (ell + 1)) (fun m z => nth m (nt z) 0)). intros m. now apply TL_nth.
Qed.
Lemma TL_rz s deg co si M cod sid Md : TL co s cod -> TL si s sid -> TL M s Md -> TL (fun z => rz_impl deg (co z) (si z) (M z)) s (rz_impl_d deg cod sid Md).
Proof.
  intros Hc Hs HM. unfold rz_impl, rz_impl_d.
  apply (TL_fold s (seq 0 (deg + 1)) (fun z res ell => fold_left (fun res j => Rotation.upd res (ell * ell + j)
     (nth (ell * ell + j) (M z) 0 * nth (ell * ell + j) (co z) 0 + nth (ell * ell + 2 * ell - j) (M z) 0 * nth (ell * ell + j) (si z) 0)) (seq 0 (2 * ell + 1)) res)); [|apply TL_repeat].
  intros g ds ell Hg.
  apply (TL_fold s (seq 0 (2 * ell + 1)) (fun z res j => Rotation.upd res (ell * ell + j)
     (nth (ell * ell + j) (M z) 0 * nth (ell * ell + j) (co z) 0 + nth (ell * ell + 2 * ell - j) (M z) 0 * nth (ell * ell + j) (si z) 0))); [|exact Hg].
  intros g' ds' j Hg'. apply TL_upd; [exact Hg'|].
  apply (tracks_add (fun z => nth (ell * ell + j) (M z) 0 * nth (ell * ell + j) (co z) 0) (fun z => nth (ell * ell + 2 * ell - j) (M z) 0 * nth (ell * ell + j) (si z) 0)).
  - apply (tracks_mul (fun z => nth (ell * ell + j) (M z) 0) (fun z => nth (ell * ell + j) (co z) 0)); now apply TL_nth.
  - apply (tracks_mul (fun z => nth (ell * ell + 2 * ell - j) (M z) 0) (fun z => nth (ell * ell + j) (si z) 0)); now apply TL_nth.
Qed.
(** ** results *)
Definition rel_res {A B} (P : (R -> A) -> B -> Prop) (f : R -> result A) (d : result B) : Prop :=
  match d with Ok x => exists g, (forall z, f z = Ok (g z)) /\ P g x | Err e => forall z, f z = Err e end.
Lemma rel_ok {A B} (P : (R -> A) -> B -> Prop) g x : P g x -> rel_res P (fun z => Ok (g z)) (Ok x).
Proof. intros H. exists g. split; [reflexivity|exact H]. Qed.
Lemma rel_bind {A B C E} (P : (R -> A) -> B -> Prop) (Q : (R -> C) -> E -> Prop) f d (k : R -> A -> result C) kd :
  rel_res P f d -> (forall g x, (forall z, f z = Ok (g z)) -> P g x -> rel_res Q (fun z => k z (g z)) (kd x)) -> rel_res Q (fun z => rbind (f z) (k z)) (rbind d kd).
Proof.
  intros H K. destruct d as [x|e]; cbn [rbind].
  - destruct H as (g & E1 & HP). pose proof (K g x E1 HP) as HK. destruct (kd x) as [y|e].
    + destruct HK as (h & E2 & HQ). exists h. split; [|exact HQ]. intros z. rewrite E1. exact (E2 z).
    + intros z. rewrite E1. exact (HK z).
  - intros z. now rewrite H.
Qed.
Lemma rel_ext {A B} (P : (R -> A) -> B -> Prop) f g d : (forall z, f z = g z) -> rel_res P f d -> rel_res P g d.
Proof. intros H. destruct d as [x|e]; [intros (h & E & HP); exists h; split; [intros z; now rewrite <- H|exact HP]|intros E z; now rewrite <- H]. Qed.
Lemma rel_err {A B} (P : (R -> A) -> B -> Prop) e : rel_res P (fun _ => Err e) (Err e).
Proof. intros z. reflexivity. Qed.
Notation RL s := (rel_res (fun f d => tracks_list f s d)).

Lemma RL_rz s deg th x M Md : angle th s x -> TL M s Md -> RL s (fun z => dot_rz deg (th z) (M z)) (dot_rz_d deg x Md).
Proof.
  intros (_ & Hc & Hs) HM. unfold dot_rz, dot_rz_d. cbv zeta. destruct (Nat.eqb (length Md) (deg ^ 2 + 2 * deg + 1)) eqn:E.
  - eexists. split; [intros z; rewrite (TL_length s M Md z HM), E; reflexivity|]. cbv beta.
    apply (TL_rz s deg (fun z => order_list deg (cheb_list deg (cos (th z)) 1 (cos (th z))) (fun v => v)) (fun z => order_list deg (cheb_list deg (cos (th z)) 0 (sin (th z))) Ropp)); [| |exact HM].
    + apply (TL_order s deg (fun z => cheb_list deg (cos (th z)) 1 (cos (th z)))); [|intros; assumption]. apply (TL_cheb s deg (fun z => cos (th z)) (fun _ => 1)); [exact Hc|apply tracks_cst|exact Hc].
    + apply (TL_order s deg (fun z => cheb_list deg (cos (th z)) 0 (sin (th z)))); [|intros; now apply tracks_neg]. apply (TL_cheb s deg (fun z => cos (th z)) (fun _ => 0)); [exact Hc|apply tracks_cst|exact Hs].
  - intros z. now rewrite (TL_length s M Md z HM), E.
Qed.
Lemma TL_blocks s deg Rm M Md : TL M s Md -> TL (fun z => dot_blocks deg Rm (M z)) s (dot_blocks_d deg Rm Md).
Proof.
  intros HM. unfold dot_blocks, dot_blocks_d.
  apply (TL_flat_map s (seq 0 (deg + 1)) (fun l z => map (fun c => bigsum (2 * l + 1) (fun r => nth (l * l + r) (M z) 0 * Rm l r c)) (seq 0 (2 * l + 1)))). intros l.
  apply (TL_map s (seq 0 (2 * l + 1)) (fun c z => bigsum (2 * l + 1) (fun r => nth (l * l + r) (M z) 0 * Rm l r c))). intros c.
  apply (tracks_bigsum (fun r z => nth (l * l + r) (M z) 0 * Rm l r c)). intros r _. apply (tracks_mul (fun z => nth (l * l + r) (M z) 0) (fun _ => Rm l r c)); [now apply TL_nth|apply tracks_cst].
Qed.
Section Euler.
Variable as_euler : R * R * R -> R * R * R.
(** a constant rotation, or a rotation about z by a traced angle *)
Lemma RL_rot_c s deg x y z theta M Md : TL M s Md -> RL s (fun w => dot_rotation_matrix as_euler deg x y z theta (M w)) (dot_rotation_matrix_d as_euler deg x y z (option_map cst theta) Md).
Proof.
  intros HM. destruct theta as [th|]; [|now apply rel_ok].
  assert (HB : forall x y z, RL s (fun w => if Nat.eqb (length (M w)) (deg ^ 2 + 2 * deg + 1) then Ok (dot_blocks deg (rotation_matrix as_euler deg x y z th) (M w)) else Err ValueError)
     (if Nat.eqb (length Md) (deg ^ 2 + 2 * deg + 1) then Ok (dot_blocks_d deg (rotation_matrix as_euler deg x y z (AutoDiff.val (cst th))) Md) else Err ValueError)).
  { intros x' y' z'. apply (rel_ext _ (fun w => if Nat.eqb (length Md) (deg ^ 2 + 2 * deg + 1) then Ok (dot_blocks deg (rotation_matrix as_euler deg x' y' z' th) (M w)) else Err ValueError)).
    - intros w. now rewrite (TL_length s M Md w HM).
    - destruct (Nat.eqb _ _); [|apply rel_err]. apply (rel_ok (fun f d => TL f s d) (fun w => dot_blocks deg (rotation_matrix as_euler deg x' y' z' th) (M w))). now apply TL_blocks. }
  unfold dot_rotation_matrix, dot_rotation_matrix_d. cbn [option_map]. destruct x as [x|]; [apply HB|]. destruct y as [y|]; [apply HB|]. destruct z as [z|]; [|apply rel_err].
  apply RL_rz; [|exact HM]. apply (angle_tracks (fun _ => th)), tracks_cst.
Qed.
Definition angle_opt (f : R -> option R) (s : R) (x : option D) : Prop :=
  match x with None => forall z, f z = None | Some x => exists g, (forall z, f z = Some (g z)) /\ angle g s x end.
Lemma RL_rot_z s deg theta x M Md : TL M s Md -> angle_opt theta s x -> RL s (fun w => dot_rotation_matrix as_euler deg None None (Some 1) (omap Ropp (theta w)) (M w)) (dot_rotation_matrix_d as_euler deg None None (Some 1) (option_map dneg x) Md).
Proof.
  intros HM Hx. destruct x as [x|].
  - destruct Hx as (g & E & Hg). apply (rel_ext _ (fun w => dot_rz deg (- g w) (M w))); [intros w; rewrite E; reflexivity|]. apply RL_rz; [now apply (angle_neg g)|exact HM].
  - apply (rel_ext _ (fun w => Ok (M w))); [intros w; rewrite Hx; reflexivity|]. now apply rel_ok.
Qed.
Lemma RL_left s deg inc obl theta x tz xz y yd : TL y s yd -> angle_opt theta s x -> angle tz s xz ->
  RL s (fun w => left_project as_euler deg inc obl (theta w) (Some (tz w)) (y w)) (left_project_d as_euler deg inc obl x (Some xz) yd).
Proof.
  intros Hy Ht Hz. unfold left_project, left_project_d. cbv zeta. destruct (sky_projection_axis_angle inc obl) as [[[ax ay] az] an].
  apply (rel_bind (fun f d => TL f s d) _ (fun w => dot_rotation_matrix as_euler deg (Some 1) None None (Some (- (1 / 2) * PI)) (y w))).
  { exact (RL_rot_c s deg (Some 1) None None (Some (- (1 / 2) * PI)) y yd Hy). }
  intros y1 y1d _ H1. apply (rel_bind (fun f d => TL f s d) _ (fun w => dot_rotation_matrix as_euler deg None None (Some 1) (omap Ropp (theta w)) (y1 w)) _ (fun w y => rbind (dot_rotation_matrix as_euler deg ax ay az an y) (fun y => dot_rotation_matrix as_euler deg None None (Some 1) (omap Ropp (Some (tz w))) y))).
  { now apply RL_rot_z. }
  intros y2 y2d _ H2. apply (rel_bind (fun f d => TL f s d) _ (fun w => dot_rotation_matrix as_euler deg ax ay az an (y2 w)) _ (fun w y => dot_rotation_matrix as_euler deg None None (Some 1) (omap Ropp (Some (tz w))) y)).
  { now apply RL_rot_c. }
  intros y3 y3d _ H3. apply (RL_rot_z s deg (fun w => Some (tz w)) (Some xz)); [exact H3|]. now exists tz.
Qed.
End Euler.
