(** * C16: equal partition cuts *)

From Coq Require Import ZArith List Bool Lia ZifyBool Psatz.
From Verif Require Import Cut CutLemmas.
Import ListNotations.
Open Scope Z_scope.

Lemma pow_ge prec a : a <= prec -> 0 <= a -> 2 ^ a <= 2 ^ prec.
Proof. intros. apply Z.pow_le_mono_r; lia. Qed.

Lemma err_up A a b : 0 < A -> A * Z.abs (a - b) <= b -> A * a <= (A + 1) * b.
Proof. intros H E. assert (A * (a - b) <= A * Z.abs (a - b)) by (apply Z.mul_le_mono_nonneg_l; lia). lia. Qed.

Lemma chain A n m q x p : 0 < A -> 0 <= p -> A * n <= (A + 1) * x -> A * m <= (A + 1) * (n * p) -> A * q <= (A + 1) * m ->
  A * A * A * q <= (A + 1) * (A + 1) * (A + 1) * (x * p).
Proof.
  intros HA Hp F1 F2 F3.
  assert (G1 : A * A * (A * q) <= A * A * ((A + 1) * m)) by (apply Z.mul_le_mono_nonneg_l; [nia|exact F3]).
  assert (G2 : A * (A + 1) * (A * m) <= A * (A + 1) * ((A + 1) * (n * p))) by (apply Z.mul_le_mono_nonneg_l; [nia|exact F2]).
  assert (G3 : (A + 1) * (A + 1) * p * (A * n) <= (A + 1) * (A + 1) * p * ((A + 1) * x)) by (apply Z.mul_le_mono_nonneg_l; [nia|exact F1]).
  lia.
Qed.

Lemma cube A p P : 16 <= A -> 0 <= p < P -> 4 * P <= A -> (A + 1) * (A + 1) * (A + 1) * p <= A * A * A * P.
Proof.
  intros HA Hp H4.
  assert (G1 : (A + 1) * (A + 1) * (A + 1) * p <= (A + 1) * (A + 1) * (A + 1) * (P - 1)) by (apply Z.mul_le_mono_nonneg_l; [nia|lia]).
  assert (Q : 3 * A * A + 3 * A + 1 <= 4 * (A * A)) by nia.
  assert (G2 : P * (3 * A * A + 3 * A + 1) <= P * (4 * (A * A))) by (apply Z.mul_le_mono_nonneg_l; lia).
  assert (G3 : A * A * (4 * P) <= A * A * A) by (apply Z.mul_le_mono_nonneg_l; nia).
  lia.
Qed.

Section Cut.
  Variables (prec N P : Z).
  Hypothesis Hprec : 53 <= prec <= 64.
  Hypothesis HN : 0 <= N < 2 ^ 63.
  Hypothesis HP : 0 < P < 2 ^ 31.
  Let n := fl prec (N * UNIT) 1.
  Let m p := fl prec (n * p) 1.
  Let q p := fl prec (m p) P.
  Let A := 2 ^ prec.

  Lemma A_big : 2 ^ 53 <= A <= 2 ^ 64 /\ 2 ^ (prec - 1) <= 2 ^ 63 /\ UNIT = 2 ^ 128.
  Proof.
    split; [split; apply Z.pow_le_mono_r; lia|]. split; [apply Z.pow_le_mono_r; lia|reflexivity].
  Qed.

  Lemma cut_eq p : p <> P -> partition_cut prec N p P = q p / UNIT.
  Proof. intros H. unfold partition_cut. replace (p =? P) with false by lia. reflexivity. Qed.

  Lemma ok_n : 1 <= N -> ok prec (N * UNIT) 1.
  Proof. intros H. pose proof A_big as (A1 & A2 & ->). split; [lia|]. change (2 ^ 128) with (2 ^ 63 * 2 ^ 65). nia. Qed.
  Lemma one_exact : fl prec (1 * 2 ^ 128) 1 = 1 * 2 ^ 128.
  Proof. pose proof A_big as (A1 & A2 & _). apply fl_exact; try lia; fold A; lia. Qed.
  Lemma n_ge : 1 <= N -> UNIT <= n.
  Proof.
    intros H. pose proof A_big as (A1 & A2 & EU). assert (A0 : 0 < A) by (clear - A1; lia). unfold n. rewrite <- (Z.mul_1_l UNIT), EU. rewrite <- one_exact at 1.
    apply fl_mono; [lia|split; lia|rewrite <- EU; apply ok_n; lia|lia].
  Qed.
  Lemma ok_m p : 1 <= N -> 1 <= p -> ok prec (n * p) 1.
  Proof. intros H Hq. pose proof (n_ge H). pose proof A_big as (A1 & A2 & EU). assert (A0 : 0 < A) by (clear - A1; lia). split; [lia|]. rewrite EU in *. nia. Qed.
  Lemma m_ge p : 1 <= N -> 1 <= p -> UNIT <= m p.
  Proof.
    intros H Hq. pose proof (n_ge H). pose proof A_big as (A1 & A2 & EU). assert (A0 : 0 < A) by (clear - A1; lia). unfold m. rewrite <- (Z.mul_1_l UNIT) at 1. rewrite EU in *. rewrite <- one_exact at 1.
    apply fl_mono; [lia|split; lia|apply ok_m; auto|nia].
  Qed.
  Lemma ok_q p : 1 <= N -> 1 <= p -> ok prec (m p) P.
  Proof.
    intros H Hq. pose proof (m_ge p H Hq). pose proof A_big as (A1 & A2 & EU). assert (A0 : 0 < A) by (clear - A1; lia). split; [lia|]. rewrite EU in *.
    change (2 ^ 128) with (2 ^ 63 * (2 ^ 31 * 2 ^ 34)) in H0. nia.
  Qed.

  Lemma zero p : N = 0 \/ p = 0 -> q p = 0.
  Proof.
    intros H. assert (M : m p = 0).
    { unfold m, n. destruct H as [-> | ->]; [reflexivity|]. rewrite Z.mul_0_r. reflexivity. }
    unfold q. rewrite M. reflexivity.
  Qed.

  Lemma q_nonneg p : 0 <= p -> 0 <= q p.
  Proof.
    intros H. destruct (Z.eq_dec N 0); [rewrite zero by auto; lia|]. destruct (Z.eq_dec p 0); [rewrite zero by auto; lia|].
    pose proof (fl_bounds prec ltac:(lia) (m p) P (ok_q p ltac:(lia) ltac:(lia))). unfold q.
    pose proof (Z.pow_nonneg 2 (lg (m p) P)). lia.
  Qed.

  Lemma q_mono p p' : 0 <= p -> p <= p' -> q p <= q p'.
  Proof.
    intros H0 H. destruct (Z.eq_dec N 0) as [E|E]; [rewrite !zero by auto; lia|].
    destruct (Z.eq_dec p 0) as [E0|E0]; [rewrite (zero p) by auto; apply q_nonneg; lia|].
    pose proof (n_ge ltac:(lia)). pose proof A_big as (_ & _ & EU).
    apply fl_mono; try lia; try (apply ok_q; lia).
    apply Z.mul_le_mono_nonneg_r; [lia|]. apply fl_mono; try lia; try (apply ok_m; lia). rewrite EU in *. nia.
  Qed.

  (** accumulated error: 3 roundings *)
  Lemma q_upper p : 0 <= p -> A * A * A * (q p * P) <= (A + 1) * (A + 1) * (A + 1) * (N * UNIT * p).
  Proof.
    intros H. pose proof A_big as (A1 & A2 & EU). assert (A0 : 0 < A) by (clear - A1; lia).
    destruct (Z.eq_dec N 0) as [E|E]; [rewrite zero by auto; rewrite E; lia|].
    destruct (Z.eq_dec p 0) as [E0|E0]; [rewrite zero by auto; rewrite E0; lia|].
    pose proof (fl_err prec ltac:(lia) _ _ (ok_n ltac:(lia))) as E1. fold n A in E1.
    pose proof (fl_err prec ltac:(lia) _ _ (ok_m p ltac:(lia) ltac:(lia))) as E2. fold (m p) A in E2.
    pose proof (fl_err prec ltac:(lia) _ _ (ok_q p ltac:(lia) ltac:(lia))) as E3. fold (q p) A in E3.
    assert (F1 : A * n <= (A + 1) * (N * UNIT)) by (rewrite <- (Z.mul_1_r n); apply err_up; [exact A0|exact E1]).
    assert (F2 : A * m p <= (A + 1) * (n * p)) by (rewrite <- (Z.mul_1_r (m p)); apply err_up; [exact A0|exact E2]).
    assert (F3 : A * (q p * P) <= (A + 1) * m p) by (apply err_up; [exact A0|exact E3]).
    clear - F1 F2 F3 A1 H.
    apply (chain A n (m p) (q p * P) (N * UNIT) p); auto. lia.
  Qed.

  Lemma q_le_N p : 0 <= p < P -> q p <= N * UNIT.
  Proof.
    intros H. pose proof (q_upper p ltac:(lia)) as U. pose proof A_big as (A1 & A2 & EU). assert (A0 : 0 < A) by (clear - A1; lia).
    assert (UP : 0 < UNIT) by (rewrite EU; lia).
    destruct (Z_le_gt_dec (q p) (N * UNIT)) as [L|G]; [exact L|]. exfalso.
    assert (K : (A + 1) * (A + 1) * (A + 1) * p <= A * A * A * P).
    { apply cube; [clear - A1; lia|lia|clear - A1 HP; lia]. }
    assert (X : (A + 1) * (A + 1) * (A + 1) * (N * UNIT * p) <= A * A * A * P * (N * UNIT)).
    { replace ((A + 1) * (A + 1) * (A + 1) * (N * UNIT * p)) with ((A + 1) * (A + 1) * (A + 1) * p * (N * UNIT)) by ring.
      apply Z.mul_le_mono_nonneg_r; [clear - HN UP; nia|exact K]. }
    assert (AP : 0 < A * A * A * P) by (clear - A0 HP; nia).
    assert (Y : A * A * A * P * q p <= A * A * A * P * (N * UNIT)) by (clear - U X; lia).
    apply Z.mul_le_mono_pos_l in Y; lia.
  Qed.

  (** exact when N P is small *)
  Lemma q_exact p : N * P <= A -> 0 <= p < P -> q p / UNIT = N * p / P.
  Proof.
    intros HNP H. pose proof A_big as (A1 & A2 & EU). assert (A0 : 0 < A) by (clear - A1; lia).
    destruct (Z.eq_dec N 0) as [E|E]; [rewrite zero by auto; rewrite E; rewrite !Z.div_0_l; lia|].
    destruct (Z.eq_dec p 0) as [E0|E0]; [rewrite zero by auto; rewrite E0, Z.mul_0_r, !Z.div_0_l; lia|].
    assert (NP : N * p < A) by nia.
    assert (EX : forall k, 1 <= k < A -> fl prec (k * UNIT) 1 = k * UNIT).
    { intros k Hk. rewrite EU. apply fl_exact; try lia; fold A; lia. }
    assert (En : n = N * UNIT) by (apply EX; nia).
    assert (Em : m p = N * p * UNIT).
    { unfold m. rewrite En. replace (N * UNIT * p) with (N * p * UNIT) by ring. apply EX. nia. }
    pose proof (Z.div_mod (N * p) P ltac:(lia)) as DM. pose proof (Z.mod_pos_bound (N * p) P ltac:(lia)) as MB.
    set (k := N * p / P) in *. set (r := (N * p) mod P) in *.
    assert (UP : 0 < UNIT) by (rewrite EU; lia).
    assert (K0 : 0 <= k) by (apply Z.div_pos; nia).
    assert (LO : k * UNIT <= q p).
    { destruct (Z.eq_dec k 0) as [->|Kn]; [pose proof (q_nonneg p); lia|].
      rewrite <- (EX k) by nia. apply fl_mono; [lia| |apply ok_q; lia|].
      - split; [lia|]. rewrite EU. lia.
      - rewrite Em. clear - DM MB UP. nia. }
    assert (HI : q p < (k + 1) * UNIT).
    { pose proof (fl_err prec ltac:(lia) _ _ (ok_q p ltac:(lia) ltac:(lia))) as E3. fold (q p) A in E3. rewrite Em in E3.
      assert (F3 : A * (q p * P) <= (A + 1) * (N * p * UNIT)) by (apply err_up; [exact A0|exact E3]).
      destruct (Z_lt_ge_dec (q p) ((k + 1) * UNIT)) as [L|G]; [exact L|]. exfalso.
      assert (X : A * ((k + 1) * UNIT * P) <= (A + 1) * (N * p * UNIT)).
      { eapply Z.le_trans; [|exact F3]. apply Z.mul_le_mono_nonneg_l; [lia|]. apply Z.mul_le_mono_nonneg_r; lia. }
      assert (Y : UNIT * (A * (k + 1) * P) <= UNIT * ((A + 1) * (N * p))) by (clear - X; lia).
      apply Z.mul_le_mono_pos_l in Y; [|exact UP]. clear - Y DM MB NP A1. nia. }
    symmetry. apply Z.div_unique_pos with (r := q p - UNIT * k); lia.
  Qed.
End Cut.

(** The cuts begin with 0, end with N, do not decrease and lie in between, for all
    counts below 2^63 and both precisions of long double *)
Theorem C16_cut_monotone : forall prec N P, 53 <= prec <= 64 -> 0 <= N < 2 ^ 63 -> 0 < P < 2 ^ 31 ->
  partition_cut prec N 0 P = 0 /\ partition_cut prec N P P = N /\
  (forall p p', 0 <= p <= p' -> p' <= P -> 0 <= partition_cut prec N p P <= partition_cut prec N p' P /\ partition_cut prec N p' P <= N).
Proof.
  intros prec N P Hprec HN HP. split; [|split].
  - rewrite cut_eq by lia. rewrite zero by auto. reflexivity.
  - unfold partition_cut. rewrite Z.eqb_refl. reflexivity.
  - assert (UP : 0 < UNIT) by reflexivity.
    assert (B : forall p, 0 <= p <= P -> 0 <= partition_cut prec N p P <= N).
    { intros p H. destruct (Z.eq_dec p P) as [->|Ne]; [unfold partition_cut; rewrite Z.eqb_refl; lia|].
      rewrite cut_eq by auto. split.
      - apply Z.div_pos; [|exact UP]. apply q_nonneg; auto; lia.
      - apply Z.div_le_upper_bound; [exact UP|]. rewrite (Z.mul_comm UNIT N). apply q_le_N; auto; lia. }
    intros p p' H H'. split; [split|]; try (apply B; lia).
    destruct (Z.eq_dec p' P) as [->|Ne].
    + unfold partition_cut at 2. rewrite Z.eqb_refl. apply B; lia.
    + rewrite !cut_eq by lia. apply Z.div_le_mono; [exact UP|]. apply q_mono; auto; lia.
Qed.

(** "Any two shares differ by at most one" is false for large counts: the
    quotient is rounded up to the next integer at some cuts only.  With N = 2^62 + 17
    and 7 processes the shares 4 and 5 differ by two. *)
Definition share (prec N P p : Z) : Z := partition_cut prec N (p + 1) P - partition_cut prec N p P.

Theorem C16_equal_shares_refuted : exists N P p p', 0 <= N < 2 ^ 63 /\ 0 < P < 2 ^ 31 /\ 0 <= p < P /\ 0 <= p' < P /\
  share 64 N P p + 2 <= share 64 N P p'.
Proof.
  exists (2 ^ 62 + 17), 7, 4, 5. vm_compute. intuition discriminate.
Qed.
(** where long double is double this happens for N = 2^53 + 1 and 3 processes *)
Theorem C16_equal_shares_double_refuted : exists N P p p', 0 <= N < 2 ^ 54 /\ 0 < P < 2 ^ 31 /\ 0 <= p < P /\ 0 <= p' < P /\
  share 53 N P p + 2 <= share 53 N P p'.
Proof. exists (2 ^ 53 + 1), 3, 0, 2. vm_compute. intuition discriminate. Qed.

(** It is true if N P fits the precision; the cuts are then exact *)
Theorem C16_equal_shares_partial : forall prec N P, 53 <= prec <= 64 -> 0 <= N < 2 ^ 63 -> 0 < P < 2 ^ 31 -> N * P <= 2 ^ prec ->
  (forall p, 0 <= p <= P -> partition_cut prec N p P = N * p / P) /\
  (forall p p', 0 <= p < P -> 0 <= p' < P -> share prec N P p <= share prec N P p' + 1).
Proof.
  intros prec N P Hprec HN HP HNP.
  assert (E : forall p, 0 <= p <= P -> partition_cut prec N p P = N * p / P).
  { intros p H. destruct (Z.eq_dec p P) as [->|Ne].
    - unfold partition_cut. rewrite Z.eqb_refl, Z.div_mul by lia. reflexivity.
    - rewrite cut_eq by auto. apply q_exact; auto; lia. }
  split; [exact E|].
  assert (B : forall p, 0 <= p < P -> N / P <= share prec N P p <= N / P + 1).
  { intros p H. unfold share. rewrite !E by lia.
    pose proof (Z.div_mod (N * p) P ltac:(lia)). pose proof (Z.mod_pos_bound (N * p) P ltac:(lia)).
    pose proof (Z.div_mod (N * (p + 1)) P ltac:(lia)). pose proof (Z.mod_pos_bound (N * (p + 1)) P ltac:(lia)).
    pose proof (Z.div_mod N P ltac:(lia)). pose proof (Z.mod_pos_bound N P ltac:(lia)). nia. }
  intros p p' H H'. pose proof (B p H). pose proof (B p' H'). lia.
Qed.

Example C16_example : 53 <= 64 <= 64 /\ 0 <= 10 ^ 12 + 7 < 2 ^ 63 /\ 0 < 1000 < 2 ^ 31 /\ (10 ^ 12 + 7) * 1000 <= 2 ^ 64 /\
  map (fun p => share 64 (10 ^ 12 + 7) 1000 p) [0; 141; 142; 143; 999] = [1000000000; 1000000000; 1000000001; 1000000000; 1000000001].
Proof. vm_compute. intuition discriminate. Qed.

Print Assumptions C16_cut_monotone.
Print Assumptions C16_equal_shares_refuted.
Print Assumptions C16_equal_shares_double_refuted.
Print Assumptions C16_equal_shares_partial.
