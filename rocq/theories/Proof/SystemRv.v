(** Radial velocities of systems. *)
From Coq Require Import Reals Lra Lia ZArith List Arith Bool.
From Coquelicot Require Import Coquelicot.
From Verif Require Import Base.RealAux Base.Dict Model.Keplerian Model.Poly Model.Basis Model.S2fft Model.Rotation Model.SolutionVector Model.Ylm Model.Surface Model.StarryLightCurve Model.SurfaceSystem
  Spec.LimbDarkSpec Spec.HarmonicSpec Spec.RotationSpec Spec.BasisSpec Spec.DiskSpec Spec.OccultSpec Spec.YlmSpec Spec.SurfaceSpec Spec.SystemSpec Spec.SkySpec Spec.ShadowSpec Spec.QuadSpec Spec.RvSystemSpec
  Proof.Euler Proof.StarryProof Proof.SystemProof Proof.SystemLight Proof.DiskProof Proof.DopplerProof Proof.Shadows Properties.SkyProps Properties.SurfaceProps.
Import ListNotations.
Open Scope R_scope.

Lemma past_nil_flux I : flux_past [] I = visible_flux I.
Proof. reflexivity. Qed.
Lemma past_unhidden x y r I : flux_past [(x, y, r)] I = unhidden_flux x y r I.
Proof. unfold flux_past, unhidden_flux, flux_around. apply disk_ext. intros p q. unfold times_hidden, unhidden_by. cbn [filter over]. destruct (Rlt_dec _ _); reflexivity. Qed.

Section Sum.
Variables (au : R) (kep : R -> R -> R * R).
Variable obs : surface -> option R -> option R -> option R -> option R -> option R -> result R.
Variables (sys : ssystem) (t : R).
Notation s := (ss_surface sys).
Notation theta := (rotational_phase s t).
Variables (v0 : R) (Reg : occultor -> Prop) (Val : occultor -> R -> Prop).
Hypothesis L : length (ss_bodies sys) = length (ss_surfaces sys).
Hypothesis Hrc : 0 < c_radius (ss_central sys).
Hypothesis Halone : obs s None None None None theta = Ok v0.
Hypothesis Hbehind : forall r x y z, z <= 0 -> obs s (Some r) (Some x) (Some y) (Some z) theta = Ok v0.
Hypothesis Hfront : forall x y r z, 0 < z -> Reg (x, y, r) -> forall v, obs s (Some r) (Some x) (Some y) (Some z) theta = Ok v -> Val (x, y, r) v.
Notation occs' bodies := (occs au kep sys t bodies).
Lemma central_vals bodies fs : Forall2 (fun o f => central_obs au kep obs sys theta t o = Ok f) bodies fs -> List.Forall Reg (occs' bodies) ->
  exists vs, Forall2 Val (occs' bodies) vs /\ Rsum (map (fun f => f - v0) fs) = Rsum (map (fun v => v - v0) vs).
Proof using Hrc Hbehind Hfront.
  intros H. induction H as [|o f bodies fs Ho H IH]; intros RG.
  - exists []. split; [constructor|reflexivity].
  - unfold occs, occultors_of in RG |- *. cbn [ss_bodies flat_map ss_central] in RG |- *. unfold central_obs, body_radius in Ho.
    change (flat_map _ bodies) with (occs' bodies) in RG |- *.
    destruct (ob_radius o) as [r|]; [|destruct (relative_position au kep o t None) as [[x y] z]; discriminate Ho].
    destruct (relative_position au kep o t None) as [[x y] z]. cbn [rbind] in Ho. cbn [map Rsum fold_right]. change (fold_right Rplus 0) with Rsum.
    destruct (Rlt_dec 0 z) as [Lz|Lz]; cbn [app] in RG |- *.
    + inversion RG as [|? ? R1 R2]; subst. destruct (IH R2) as (vs & F1 & E).
      apply Hfront in Ho; [|apply Rdiv_lt_0_compat; lra|exact R1]. exists (f :: vs). split; [constructor; assumption|]. rewrite E. reflexivity.
    + destruct (IH RG) as (vs & F1 & E). exists vs. split; [exact F1|]. rewrite E. rewrite Hbehind in Ho.
      * injection Ho as <-. ring.
      * apply Rmult_le_reg_r with (c_radius (ss_central sys)); [lra|]. replace (z / c_radius (ss_central sys) * c_radius (ss_central sys)) with z by (field; lra). lra.
Qed.
Lemma observable_vals row : List.Forall Reg (occultors_of au kep sys t) -> system_observable au kep obs sys t = Ok row ->
  exists vs bs, row = (v0 + Rsum (map (fun v => v - v0) vs)) :: bs /\ length bs = length (ss_bodies sys) /\ Forall2 Val (occultors_of au kep sys t) vs.
Proof using L Hrc Halone Hbehind Hfront.
  intros RG E. assert (DEC : ss_bodies sys = [] \/ ss_bodies sys <> []) by (destruct (ss_bodies sys); [now left|right; discriminate]). destruct DEC as [EB|NB].
  - rewrite observable_empty in E by exact EB. rewrite Halone in E. injection E as <-. exists [], []. unfold occultors_of. rewrite EB. cbn [flat_map Rsum fold_right map]. split; [now rewrite Rplus_0_r|split; [reflexivity|constructor]].
  - destruct (observable_ok au kep _ sys t row L NB E) as (f0 & fs & bs & -> & E0' & Lf & Lb & Nf & _). rewrite Halone in E0'. injection E0' as <-.
    assert (F := forall2_nth _ _ _ Lf Nf). destruct (central_vals (ss_bodies sys) fs F) as (vs & F1 & ES); [exact RG|].
    exists vs, bs. split; [|split; [exact Lb|exact F1]]. f_equal. rewrite <- ES.
    assert (SS : forall c, Rsum (map (fun f => f - c) fs) = Rsum fs - INR (length fs) * c).
    { intros c. clear. induction fs as [|f fs IH]; [cbn; ring|]. cbn [map length Rsum fold_right]. change (fold_right Rplus 0) with Rsum. rewrite IH, S_INR. ring. }
    rewrite SS. assert (N0 : (length fs <> 0)%nat) by (rewrite Lf; destruct (ss_bodies sys); [contradiction|discriminate]). rewrite minus_INR by lia. cbn [INR]. ring.
Qed.
End Sum.

Section Surf.
Variable as_euler : R * R * R -> R * R * R.
Hypothesis Hz : zyz_euler as_euler.
Variables (eps : R) (low high : list (R * R)) (A2 : nat -> matrix).
Hypothesis He : 0 < eps.
Variables (s : surface) (veq : R) (theta : option R).
Hypotheses (Hy : wf_ylm (s_y s)) (Hv : surf_veq s = Ok veq) (Hs : s_shear s = None) (HL : ld_flux (s_u s) <> 0) (HI : visible_flux (seen_of s theta) <> 0).
Hypothesis HA : right_inverse (ncoef (surf_deg s + 1)) (A2_inv (Z.of_nat (surf_deg s + 1))) (A2 (surf_deg s + 1)%nat).
Notation rv := (surface_radial_velocity as_euler eps low high A2 s).
Lemma rv_alone r x y z : (r = None \/ exists r', r = Some r' /\ (1 + r' <= sqrt (none0 x ^ 2 + none0 y ^ 2) \/ none0 z <= 0)) -> rv r x y z theta = Ok (s_amplitude s * mean_velocity s veq theta []).
Proof using Hz Hy Hv Hs HL HI. intros H. rewrite (C62_radial_velocity as_euler eps low high A2 s veq r x y z theta Hz Hy Hv Hs HI HL H). reflexivity. Qed.
Lemma rv_front x y r z v : 0 < z -> regular_rv eps high (x, y, r) -> rv (Some r) (Some x) (Some y) (Some z) theta = Ok v -> rv_past low high s veq theta (x, y, r) v.
Proof using Hz Hy Hv Hs HL HI HA He.
  intros Hz' (Hr & H1 & G) E. unfold rv_past. set (b := sqrt (x ^ 2 + y ^ 2)) in *. destruct (Rlt_le_dec b (1 + r)) as [C|C].
  - left. split; [exact C|]. destruct (C79_partly_hidden as_euler A2 s veq theta x y Hz Hy Hv Hs HL HA) as (g & h & Hg & Hh & H). exists g, h. split; [exact Hg|]. split; [exact Hh|]. cbv zeta. intros N. rewrite !past_unhidden in *.
    rewrite (H eps low high r z He Hr C H1 Hz' (G C) N) in E. injection E as <-. reflexivity.
  - right. split; [exact C|]. rewrite rv_alone in E by (right; exists r; split; [reflexivity|]; left; exact C). now injection E as <-.
Qed.
End Surf.

Section Sys.
Variable as_euler : R * R * R -> R * R * R.
Hypothesis Hz : zyz_euler as_euler.
Variables (eps : R) (low high : list (R * R)) (A2 : nat -> matrix) (au : R) (kep : R -> R -> R * R).
Hypothesis He : 0 < eps.
Theorem system_rv sys ts rows i t o os veq : let s := ss_surface sys in let theta := rotational_phase s t in
  ss_bodies sys = o :: os -> length (ss_bodies sys) = length (ss_surfaces sys) -> wf_ylm (s_y s) -> surf_veq s = Ok veq -> s_shear s = None -> ld_flux (s_u s) <> 0 -> visible_flux (seen_of s theta) <> 0 ->
  right_inverse (ncoef (surf_deg s + 1)) (A2_inv (Z.of_nat (surf_deg s + 1))) (A2 (surf_deg s + 1)%nat) -> 0 < c_radius (ss_central sys) ->
  List.Forall (regular_rv eps high) (occultors_of au kep sys t) -> starry_radial_velocity as_euler eps low high A2 au kep sys ts = Ok rows -> nth_error ts i = Some t ->
  let v0 := s_amplitude s * mean_velocity s veq theta [] in
  exists vs bs, nth_error rows i = Some ((v0 + Rsum (map (fun v => v - v0) vs) + radial_velocity au kep o t None) :: bs) /\ length bs = length (ss_bodies sys) /\ Forall2 (rv_past low high s veq theta) (occultors_of au kep sys t) vs.
Proof using Hz He.
  intros s theta EB L W Hv Hs HL HI HA Hrc RG E Et v0. destruct (sys_rv_ok au kep _ sys ts o os rows EB L E) as (_ & H). destruct (H i t Et) as (c & bs & E1 & E2).
  destruct (observable_vals au kep (surface_radial_velocity as_euler eps low high A2) sys t v0 (regular_rv eps high) (rv_past low high s veq theta) L Hrc) with (row := c :: bs) as (vs & bs' & X1 & X2 & X3).
  - apply rv_alone; try assumption. now left.
  - intros r x y z Hz'. apply rv_alone; try assumption. right. exists r. split; [reflexivity|]. right. exact Hz'.
  - intros x y r z Hz' R v Hv'. exact (rv_front as_euler Hz eps low high A2 He s veq theta W Hv Hs HL HI HA x y r z v Hz' R Hv').
  - exact RG.
  - exact E1.
  - injection X1 as -> <-. exists vs, bs. split; [exact E2|]. split; [exact X2|exact X3].
Qed.
Theorem body_rv sys ts rows i t k o s : length (ss_bodies sys) = length (ss_surfaces sys) -> starry_radial_velocity as_euler eps low high A2 au kep sys ts = Ok rows -> nth_error ts i = Some t -> nth_error (ss_bodies sys) k = Some o ->
  exists row, nth_error rows i = Some row /\
  (nth_error (ss_surfaces sys) k = Some None -> nth_error row (S k) = Some 0) /\
  (nth_error (ss_surfaces sys) k = Some (Some s) -> let theta := rotational_phase s t in forall veq,
   wf_ylm (s_y s) -> surf_veq s = Ok veq -> s_shear s = None -> ld_flux (s_u s) <> 0 -> visible_flux (seen_of s theta) <> 0 ->
   right_inverse (ncoef (surf_deg s + 1)) (A2_inv (Z.of_nat (surf_deg s + 1))) (A2 (surf_deg s + 1)%nat) -> (forall r, ob_radius o = Some r -> 0 < r) ->
   List.Forall (regular_rv eps high) (occultors_of_body au kep sys t o) ->
   match occultors_of_body au kep sys t o with
   | [] => nth_error row (S k) = Some (s_amplitude s * mean_velocity s veq theta [])
   | oc :: _ => exists v, nth_error row (S k) = Some v /\ rv_past low high s veq theta oc v
   end).
Proof using Hz He.
  intros L E Et Eo. assert (NB : ss_bodies sys <> []) by (intros H; rewrite H in Eo; destruct k; discriminate). destruct (ss_bodies sys) as [|o1 os] eqn:EB; [contradiction|]. rewrite <- EB in *.
  destruct (sys_rv_ok au kep _ sys ts o1 os rows EB L E) as (_ & H). destruct (H i t Et) as (c & bs & E1 & E2). eexists. split; [exact E2|]. cbn [nth_error].
  destruct (observable_ok au kep _ sys t (c :: bs) L NB E1) as (f0 & fs & bs' & X & _ & _ & _ & _ & Nb). injection X as _ <-. split.
  - intros Es. destruct (Nb k o None Eo Es) as (f & Ef & Eb). rewrite Ef. unfold body_obs in Eb. destruct (relative_position au kep o t None) as [[x y] z]. destruct (body_radius o); cbn [rbind] in Eb; congruence.
  - intros Es veq W Hv Hs HL HI HA Hr RG. set (theta := rotational_phase s t) in *. destruct (Nb k o (Some s) Eo Es) as (f & Ef & Eb). rewrite Ef. unfold body_obs, body_radius in Eb. unfold occultors_of_body in RG |- *.
    destruct (ob_radius o) as [r|]; [|destruct (relative_position au kep o t None) as [[x y] z]; discriminate Eb]. specialize (Hr r eq_refl).
    destruct (relative_position au kep o t None) as [[x y] z]. cbn [rbind] in Eb. destruct (Rlt_dec z 0) as [Lz|Lz].
    + inversion RG as [|? ? R1 R2]; subst. exists f. split; [reflexivity|]. refine (rv_front as_euler Hz eps low high A2 He s veq theta W Hv Hs HL HI HA _ _ _ (- z / r) f _ R1 Eb). apply Rdiv_lt_0_compat; lra.
    + rewrite (rv_alone as_euler Hz eps low high A2 s veq theta W Hv Hs HL HI) in Eb; [now injection Eb as <-|]. right. eexists. split; [reflexivity|]. right. cbn [none0].
      apply Rmult_le_reg_r with r; [lra|]. replace (- z / r * r) with (- z) by (field; lra). lra.
Qed.
End Sys.
