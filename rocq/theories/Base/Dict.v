(** Python dictionaries (insertion ordered) as association lists. *)
From Coq Require Import List Bool Arith Lia Reals Lra.
From Verif Require Import Base.RealAux.
Import ListNotations.
Open Scope R_scope.

Section Dict.
Context {K V : Type}.
Variable eqb : K -> K -> bool.

(** dict.get(k) *)
Fixpoint dget (k : K) (l : list (K * V)) : option V :=
  match l with
  | [] => None
  | (k', v) :: r => if eqb k k' then Some v else dget k r
  end.
(** d[k] = f(d.get(k, dflt)): in place when present, appended otherwise *)
Fixpoint dupd (k : K) (f : V -> V) (dflt : V) (l : list (K * V)) : list (K * V) :=
  match l with
  | [] => [(k, f dflt)]
  | (k', v) :: r => if eqb k k' then (k', f v) :: r else (k', v) :: dupd k f dflt r
  end.
(** d[k] = v *)
Definition dset (k : K) (v : V) (l : list (K * V)) : list (K * V) := dupd k (fun _ => v) v l.
(** k in d *)
Definition dmem (k : K) (l : list (K * V)) : bool := match dget k l with Some _ => true | None => false end.
Definition keys (l : list (K * V)) : list K := map fst l.

Hypothesis eqb_eq : forall a b, eqb a b = true <-> a = b.

Lemma eqb_refl k : eqb k k = true.
Proof. now apply eqb_eq. Qed.
Lemma eqb_neq a b : eqb a b = false <-> a <> b.
Proof.
  destruct (eqb a b) eqn:E; split; intros H; try discriminate; try (intros ->; rewrite eqb_refl in E; discriminate); auto.
  apply eqb_eq in E. contradiction.
Qed.
Lemma dget_In k v l : dget k l = Some v -> In (k, v) l.
Proof.
  induction l as [|[k' v'] l IH]; simpl; [discriminate|]. destruct (eqb k k') eqn:E; intros H.
  - injection H as ->. apply eqb_eq in E. subst. now left.
  - right. auto.
Qed.
Lemma dget_None k l : dget k l = None <-> ~ In k (keys l).
Proof.
  induction l as [|[k' v'] l IH]; simpl; [tauto|]. destruct (eqb k k') eqn:E.
  - apply eqb_eq in E. subst. split; [discriminate|]. intros H. exfalso. auto.
  - apply eqb_neq in E. rewrite IH. split; intros H; [intros [H'|H']; [congruence|auto]|tauto].
Qed.
Lemma In_dget k v l : NoDup (keys l) -> In (k, v) l -> dget k l = Some v.
Proof.
  induction l as [|[k' v'] l IH]; simpl; [tauto|]. intros Hn [H|H].
  - injection H as -> ->. now rewrite eqb_refl.
  - inversion Hn as [|? ? Hi Hn']; subst. destruct (eqb k k') eqn:E; [|auto].
    apply eqb_eq in E. subst. exfalso. apply Hi. change k' with (fst (k', v)). apply in_map. exact H.
Qed.
Lemma dmem_true k l : dmem k l = true <-> In k (keys l).
Proof.
  unfold dmem. destruct (dget k l) eqn:E.
  - split; [|auto]. intros _. apply dget_In in E. change k with (fst (k, v)). now apply in_map.
  - apply dget_None in E. split; [discriminate|tauto].
Qed.
Lemma keys_dupd k f d l : keys (dupd k f d l) = if dmem k l then keys l else keys l ++ [k].
Proof.
  unfold dmem. induction l as [|[k' v'] l IH]; simpl; [reflexivity|].
  destruct (eqb k k') eqn:E; simpl; [reflexivity|]. rewrite IH. now destruct (dget k l).
Qed.
Lemma In_keys_dupd k f d l k' : In k' (keys (dupd k f d l)) <-> k' = k \/ In k' (keys l).
Proof.
  rewrite keys_dupd. destruct (dmem k l) eqn:E.
  - apply dmem_true in E. split; [auto|]. intros [->|H]; auto.
  - rewrite in_app_iff. simpl. intuition.
Qed.
Lemma NoDup_dupd k f d l : NoDup (keys l) -> NoDup (keys (dupd k f d l)).
Proof.
  intros H. rewrite keys_dupd. destruct (dmem k l) eqn:E; [exact H|].
  assert (Hk : ~ In k (keys l)) by (intros Hi; apply dmem_true in Hi; congruence).
  apply NoDup_rev in H. rewrite <- (rev_involutive (keys l ++ [k])). apply NoDup_rev. rewrite rev_app_distr. simpl.
  constructor; [now rewrite <- in_rev|exact H].
Qed.
Lemma dget_dupd k f d l k' : dget k' (dupd k f d l) =
  if eqb k' k then Some (f (match dget k l with Some v => v | None => d end)) else dget k' l.
Proof.
  induction l as [|[k0 v0] l IH]; simpl.
  - destruct (eqb k' k) eqn:E; reflexivity.
  - destruct (eqb k k0) eqn:E.
    + simpl. apply eqb_eq in E. subst. destruct (eqb k' k0) eqn:E'; reflexivity.
    + simpl. rewrite IH. destruct (eqb k' k0) eqn:E', (eqb k' k) eqn:E2; try reflexivity.
      apply eqb_eq in E'. apply eqb_eq in E2. subst. rewrite eqb_refl in E. discriminate.
Qed.
End Dict.

(** a weighted sum over the items changes by one term under [d[k] += v] *)
Definition dsum {K} (g : K -> R) (l : list (K * R)) : R := Rsum (map (fun p => snd p * g (fst p)) l).
Lemma dsum_cons {K} (g : K -> R) k v l : dsum g ((k, v) :: l) = v * g k + dsum g l.
Proof. reflexivity. Qed.
Lemma dsum_nil {K} (g : K -> R) : dsum g [] = 0.
Proof. reflexivity. Qed.
Lemma dsum_app {K} (g : K -> R) a b : dsum g (a ++ b) = dsum g a + dsum g b.
Proof. unfold dsum. now rewrite map_app, Rsum_app. Qed.
Lemma dsum_dupd {K} (eqb : K -> K -> bool) (eqb_eq : forall a b, eqb a b = true <-> a = b) (g : K -> R) k v l :
  dsum g (dupd eqb k (fun x => x + v) 0 l) = dsum g l + v * g k.
Proof.
  induction l as [|[k' v'] l IH]; simpl.
  - unfold dsum. simpl. ring.
  - destruct (eqb k k') eqn:E.
    + apply eqb_eq in E. subst. rewrite !dsum_cons. ring.
    + rewrite !dsum_cons, IH. ring.
Qed.
Lemma dsum_ext {K} (f g : K -> R) l : (forall k, In k (map fst l) -> f k = g k) -> dsum f l = dsum g l.
Proof.
  intros H. unfold dsum. apply Rsum_map_ext. intros [k v] Hi. simpl. rewrite H; [reflexivity|].
  change k with (fst (k, v)). now apply in_map.
Qed.
Lemma dsum_scal {K} c (g : K -> R) l : dsum (fun k => c * g k) l = c * dsum g l.
Proof. unfold dsum. rewrite <- Rsum_map_scal. apply Rsum_map_ext. intros [k v] _. simpl. ring. Qed.
Lemma dsum_map_val {K} (h : R -> R) (g : K -> R) l :
  dsum g (map (fun p => (fst p, h (snd p))) l) = Rsum (map (fun p => h (snd p) * g (fst p)) l).
Proof. unfold dsum. now rewrite map_map. Qed.
