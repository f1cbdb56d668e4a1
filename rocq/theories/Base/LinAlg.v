(** A square real matrix whose columns span is injective (used for changes of basis). *)
From Coq Require Import Reals Lra Lia List Bool Arith Classical.
From Verif Require Import Base.RealAux.
Open Scope R_scope.

Definition swap (p q n : nat) : nat := if Nat.eqb n p then q else if Nat.eqb n q then p else n.
Lemma swap_invol p q n : swap p q (swap p q n) = n.
Proof.
  unfold swap. destruct (Nat.eqb_spec n p) as [->|]; [|destruct (Nat.eqb_spec n q) as [->|]].
  - destruct (Nat.eqb_spec q p) as [->|]; [reflexivity|]. now rewrite Nat.eqb_refl.
  - now rewrite Nat.eqb_refl.
  - destruct (Nat.eqb_spec n p); [contradiction|]. destruct (Nat.eqb_spec n q); [contradiction|reflexivity].
Qed.
Lemma bigsum_swap_last N p f : (p <= N)%nat -> bigsum (S N) (fun n => f (swap p N n)) = bigsum (S N) f.
Proof.
  intros Hp. destruct (Nat.eq_dec p N) as [->|Hne].
  - apply bigsum_ext. intros n _. f_equal. unfold swap. destruct (Nat.eqb_spec n N); [now subst|reflexivity].
  - cbn [bigsum]. replace (swap p N N) with p.
    2:{ unfold swap. destruct (Nat.eqb_spec N p); [lia|]. now rewrite Nat.eqb_refl. }
    assert (H : bigsum N (fun n => f (swap p N n)) = bigsum N (fun n => f n + (if Nat.eqb n p then f N - f p else 0))).
    { apply bigsum_ext. intros n Hn. unfold swap. destruct (Nat.eqb_spec n p) as [->|]; [lra|]. destruct (Nat.eqb_spec n N); [lia|lra]. }
    rewrite H, bigsum_plus, (bigsum_single N p (fun n => if Nat.eqb n p then f N - f p else 0)).
    + rewrite Nat.eqb_refl. lra.
    + lia.
    + intros i _ Hi. destruct (Nat.eqb_spec i p); [contradiction|reflexivity].
Qed.
(** M homogeneous equations in N > M unknowns have a non-trivial solution *)
Lemma homogeneous M : forall N (a : nat -> nat -> R), (M < N)%nat ->
  exists w, (exists n, (n < N)%nat /\ w n <> 0) /\ forall m, (m < M)%nat -> bigsum N (fun n => a m n * w n) = 0.
Proof.
  induction M as [|M IH]; intros N a HN.
  - exists (fun _ => 1). split; [exists 0%nat; split; [lia|lra]|]. intros; lia.
  - destruct (classic (exists p, (p < N)%nat /\ a M p <> 0)) as [(p & Hp & Hap)|Hz].
    + destruct N as [|N]; [lia|].
      set (b := fun m n => a m (swap p N n)).
      assert (HbN : b M N <> 0).
      { unfold b, swap. rewrite Nat.eqb_refl. destruct (Nat.eqb_spec N p) as [->|]; assumption. }
      destruct (IH N (fun m n => b m n - b m N * b M n / b M N) ltac:(lia)) as (w & (k & Hk & Hwk) & Hw).
      set (wN := - bigsum N (fun n => b M n * w n) / b M N).
      set (v := fun n => if Nat.eqb n N then wN else w n).
      assert (Ev : forall m, bigsum (S N) (fun n => b m n * v n) = bigsum N (fun n => b m n * w n) + b m N * wN).
      { intros m. cbn [bigsum]. unfold v at 2. rewrite Nat.eqb_refl. f_equal. apply bigsum_ext. intros n Hn. unfold v.
        destruct (Nat.eqb_spec n N); [lia|reflexivity]. }
      exists (fun n => v (swap p N n)). split.
      * exists (swap p N k). split.
        -- unfold swap. destruct (Nat.eqb_spec k p); [lia|]. destruct (Nat.eqb_spec k N); lia.
        -- rewrite swap_invol. unfold v. destruct (Nat.eqb_spec k N); [lia|assumption].
      * intros m Hm. rewrite <- (bigsum_swap_last N p) by lia.
        rewrite (bigsum_ext _ _ (fun n => b m n * v n)).
        2:{ intros n _. rewrite swap_invol. reflexivity. }
        rewrite Ev. destruct (Nat.eq_dec m M) as [->|Hne].
        -- unfold wN. field. exact HbN.
        -- specialize (Hw m ltac:(lia)). unfold wN.
           rewrite (bigsum_ext N _ (fun n => b m n * w n + (- (b m N / b M N)) * (b M n * w n))) in Hw by (intros; field; exact HbN).
           rewrite bigsum_plus, bigsum_scal in Hw. rewrite <- Hw. field. exact HbN.
    + destruct (IH N a ltac:(lia)) as (w & Hn & Hw). exists w. split; [exact Hn|]. intros m Hm.
      destruct (Nat.eq_dec m M) as [->|]; [|apply Hw; lia]. apply bigsum_zero_ext. intros n Hn'.
      destruct (Req_dec (a M n) 0) as [->|H]; [ring|]. exfalso. apply Hz. exists n. auto.
Qed.
(** fewer than N vectors cannot span R^N *)
Lemma few_not_span M N (a : nat -> nat -> R) : (M < N)%nat ->
  ~ (forall v : nat -> R, exists c, forall r, (r < N)%nat -> bigsum M (fun m => a m r * c m) = v r).
Proof.
  intros HMN H. destruct (homogeneous M N a HMN) as (w & (k & Hk & Hwk) & Hw). destruct (H w) as (c & Hc).
  assert (E : bigsum N (fun n => w n * w n) = 0).
  { rewrite (bigsum_ext N _ (fun n => bigsum M (fun m => c m * (a m n * w n)))).
    - rewrite bigsum_swap. apply bigsum_zero_ext. intros m Hm. rewrite bigsum_scal, Hw by exact Hm. ring.
    - intros n Hn. rewrite <- (Hc n Hn) at 1. rewrite Rmult_comm, <- bigsum_scal. apply bigsum_ext. intros m _. ring. }
  assert (P : 0 < bigsum N (fun n => w n * w n)).
  { clear - Hk Hwk. induction N as [|N IH]; [lia|]. cbn [bigsum].
    assert (0 <= bigsum N (fun n => w n * w n)) by (apply bigsum_nonneg; intros; nra).
    destruct (Nat.eq_dec k N) as [->|]; [assert (0 < w N * w N) by nra; lra|]. specialize (IH ltac:(lia)). nra. }
  lra.
Qed.
Lemma span_injective N (a : nat -> nat -> R) :
  (forall v : nat -> R, exists c, forall r, (r < N)%nat -> bigsum N (fun n => a r n * c n) = v r) ->
  forall c, (forall r, (r < N)%nat -> bigsum N (fun n => a r n * c n) = 0) -> forall n, (n < N)%nat -> c n = 0.
Proof.
  intros Hs c Hc k Hk. destruct (Req_dec (c k) 0) as [|Hck]; [assumption|exfalso].
  destruct N as [|N]; [lia|].
  apply (few_not_span N (S N) (fun m r => a r (swap k N m)) ltac:(lia)). intros v. destruct (Hs v) as (d & Hd).
  set (e := fun n => d n - d k / c k * c n).
  assert (He : forall r, (r < S N)%nat -> bigsum (S N) (fun n => a r n * e n) = v r).
  { intros r Hr. unfold e. rewrite (bigsum_ext _ _ (fun n => a r n * d n + (- (d k / c k)) * (a r n * c n))) by (intros; ring).
    rewrite bigsum_plus, bigsum_scal, Hc, Hd by exact Hr. ring. }
  exists (fun m => e (swap k N m)). intros r Hr. rewrite <- (He r Hr). rewrite <- (bigsum_swap_last N k) by lia. cbn [bigsum].
  assert (E : e (swap k N N) = 0).
  { unfold swap. rewrite Nat.eqb_refl. assert (E' : e k = 0) by (unfold e; field; exact Hck). destruct (Nat.eqb_spec N k) as [->|]; exact E'. }
  rewrite E. ring.
Qed.
(** and conversely, an injective square system is solvable *)
Lemma injective_span N (a : nat -> nat -> R) :
  (forall c, (forall r, (r < N)%nat -> bigsum N (fun n => a r n * c n) = 0) -> forall n, (n < N)%nat -> c n = 0) ->
  forall v : nat -> R, exists c, forall r, (r < N)%nat -> bigsum N (fun n => a r n * c n) = v r.
Proof.
  intros Hi v. destruct (homogeneous N (S N) (fun r n => if Nat.eqb n N then v r else a r n) ltac:(lia)) as (w & (k & Hk & Hwk) & Hw).
  assert (E : forall r, (r < N)%nat -> bigsum N (fun n => a r n * w n) + v r * w N = 0).
  { intros r Hr. specialize (Hw r Hr). cbn [bigsum] in Hw. rewrite Nat.eqb_refl in Hw. etransitivity; [|exact Hw]. f_equal. apply bigsum_ext. intros n Hn. destruct (Nat.eqb_spec n N); [lia|reflexivity]. }
  assert (HN : w N <> 0).
  { intros E0. destruct (Nat.eq_dec k N) as [-> |Hne]; [contradiction|]. apply Hwk. apply (Hi w); [|lia]. intros r Hr. specialize (E r Hr). rewrite E0, Rmult_0_r, Rplus_0_r in E. exact E. }
  exists (fun n => - w n / w N). intros r Hr. specialize (E r Hr). rewrite (bigsum_ext _ _ (fun n => - / w N * (a r n * w n))) by (intros; field; exact HN).
  rewrite bigsum_scal. replace (bigsum N (fun n => a r n * w n)) with (- (v r * w N)) by lra. field. exact HN.
Qed.
