(** * The neighborhood, the search in the input and closed sets, for the proofs about the balance *)

From Coq Require Import ZArith List Bool Lia ZifyBool Sorting.Sorted.
From Verif Require Import Quad Spec Morton ZBits Interval QuadLemmas CompareLemmas DescLemmas SearchLocal TreeLemmas Tiles Balance BalanceBasics BalanceGeom.
Import ListNotations.
Open Scope Z_scope.

(** ** The quadrants number sid *)
Definition selects (d : dim) (sid : Z) : bool * bool * bool :=
  if sid =? 0 then (false, false, false)
  else if sid <=? dimz d then (sid - 1 =? 0, sid - 1 =? 1, sid - 1 =? 2)
  else if is3 d && (sid <? 7) then (negb (sid - 4 =? 0), negb (sid - 4 =? 1), negb (sid - 4 =? 2))
  else (true, true, is3 d).
Definition sgn (pid m : Z) : Z := if nz (Z.land pid m) then 1 else -1.
Definition dir (d : dim) (pid sid : Z) : Z * Z * Z :=
  let '(x, y, z) := selects d sid in (if x then sgn pid 1 else 0, if y then sgn pid 2 else 0, if z then sgn pid 4 else 0).

Definition sid_of (d : dim) (x y z : bool) : Z :=
  match d with
  | D2 => (if x then 1 else 0) + (if y then 2 else 0)
  | D3 => match x, y, z with
          | false, false, false => 0 | true, false, false => 1 | false, true, false => 2 | false, false, true => 3
          | false, true, true => 4 | true, false, true => 5 | true, true, false => 6 | true, true, true => 7
          end
  end.

Section H.
  Variable d : dim.
  Notation inn w q := (qpos d w <= qpos d q /\ qend d q <= qend d w).

  Lemma hood_rep p sid : wf d p -> 0 < ql p -> hood d (sibling d p 0) (child_id d p) (QLEN (ql p - 1)) sid = rep (shift (parent d p) (dir d (child_id d p) sid)).
  Proof.
    intros W L. pose proof (wf_level d p W). rewrite (sibling0_rep d p W L). destruct (parent_wf d p W L) as (Wg & Lg & _). rewrite QLEN_side by lia.
    set (g := parent d p) in *. set (pid := child_id d p). assert (EL : ql p - 1 = ql g) by lia. rewrite EL.
    assert (SH : forall x y z, mkq (if x : bool then qx (rep g) + (if nz (Z.land pid 1) then side (ql g) else - side (ql g)) else qx (rep g))
        (if y : bool then qy (rep g) + (if nz (Z.land pid 2) then side (ql g) else - side (ql g)) else qy (rep g))
        (if z : bool then qz (rep g) + (if nz (Z.land pid 4) then side (ql g) else - side (ql g)) else qz (rep g)) (ql (rep g))
      = rep (shift g (if x then sgn pid 1 else 0, if y then sgn pid 2 else 0, if z then sgn pid 4 else 0))).
    { intros x y z. unfold rep, sgn. cbn [shift qx qy qz ql]. f_equal; [destruct x, (nz (Z.land pid 1))|destruct y, (nz (Z.land pid 2))|destruct z, (nz (Z.land pid 4))]; lia. }
    unfold hood, dir, selects. destruct (sid =? 0); [rewrite shift_zero; reflexivity|]. destruct (sid <=? dimz d); [exact (SH (sid - 1 =? 0) (sid - 1 =? 1) (sid - 1 =? 2))|]. destruct (is3 d && (sid <? 7)); [exact (SH (negb (sid - 4 =? 0)) (negb (sid - 4 =? 1)) (negb (sid - 4 =? 2)))|exact (SH true true (is3 d))].
  Qed.

  Lemma dir_zero pid : dir d pid 0 = (0, 0, 0).
  Proof. reflexivity. Qed.

  Lemma bound_8 k : 1 <= k <= dimz d -> 1 < bound_of d k <= 8.
  Proof. intros H. assert (KS : k = 1 \/ k = 2 \/ k = 3) by (destruct d; cbn [dimz] in H; lia). destruct d; cbn [dimz] in H; destruct KS as [->|[->| ->]]; try (exfalso; lia); cbn; lia. Qed.

  Lemma dir_offset k pid sid : 1 <= k <= dimz d -> 0 < sid < bound_of d k -> offset d k (dir d pid sid) /\ leaving d pid (dir d pid sid) = dir d pid sid /\ (d = D2 -> snd (dir d pid sid) = 0).
  Proof.
    intros Hk Hs. pose proof (bound_8 k Hk) as B8. unfold dir, sgn, leaving, part, offset.
    assert (KS : k = 1 \/ k = 2 \/ k = 3) by (destruct d; cbn [dimz] in Hk; lia).
    destruct d; cbn [dimz] in Hk; destruct KS as [->|[->| ->]]; try (exfalso; lia); unfold bound_of in Hs; cbn in Hs;
      assert (SS : sid = 1 \/ sid = 2 \/ sid = 3 \/ sid = 4 \/ sid = 5 \/ sid = 6 \/ sid = 7) by lia; clear B8; destruct SS as [->|[->|[->|[->|[->|[->| ->]]]]]]; try (exfalso; lia); cbn;
      destruct (nz (Z.land pid 1)), (nz (Z.land pid 2)), (nz (Z.land pid 4)); cbn; repeat split; intros; try lia; try congruence.
  Qed.

  Lemma leaving_dir k pid o : 1 <= k <= dimz d -> offset d k o -> exists sid, 0 <= sid < bound_of d k /\ leaving d pid o = dir d pid sid.
  Proof.
    destruct o as ((a, b), c). intros Hk (Ha & Hb & Hc & HD & HS).
    set (la := part (nz (Z.land pid 1)) a). set (lb := part (nz (Z.land pid 2)) b). set (lc := if is3 d then part (nz (Z.land pid 4)) c else 0).
    assert (PA : forall m e, -1 <= e <= 1 -> part (nz (Z.land pid m)) e = (if negb (part (nz (Z.land pid m)) e =? 0) then sgn pid m else 0) /\ Z.abs (part (nz (Z.land pid m)) e) <= Z.abs e).
    { intros m e He. unfold part, sgn. destruct (nz (Z.land pid m)); [destruct (e =? 1) eqn:E|destruct (e =? -1) eqn:E]; cbn; lia. }
    destruct (PA 1 a Ha) as (A1 & A2). destruct (PA 2 b Hb) as (B1 & B2). destruct (PA 4 c Hc) as (C1 & C2). fold la in A1, A2. fold lb in B1, B2.
    exists (sid_of d (negb (la =? 0)) (negb (lb =? 0)) (is3 d && negb (lc =? 0))). unfold leaving. fold la. fold lb. fold lc.
    assert (C3 : lc = (if is3 d && negb (lc =? 0) then sgn pid 4 else 0) /\ Z.abs lc <= Z.abs c) by (unfold lc; destruct d; cbn [is3 andb]; [lia|auto]). destruct C3 as (C3 & C4).
    assert (SB : (if la =? 0 then 0 else 1) + (if lb =? 0 then 0 else 1) + (if lc =? 0 then 0 else 1) <= k). { destruct (la =? 0) eqn:E1, (lb =? 0) eqn:E2, (lc =? 0) eqn:E3; lia. }
    assert (L2 : d = D2 -> lc = 0) by (unfold lc; intros ->; reflexivity). split.
    - unfold bound_of, sid_of. destruct d; cbn [is3 andb dimz] in *; [rewrite (L2 eq_refl) in SB|]; destruct (la =? 0), (lb =? 0); try destruct (lc =? 0); cbn in *;
        assert (KS : k = 1 \/ k = 2 \/ k = 3) by lia; destruct KS as [->|[->| ->]]; cbn; lia.
    - rewrite A1 at 1. rewrite B1 at 1. rewrite C3 at 1. unfold dir, selects, sid_of. destruct d; cbn [is3 andb dimz] in *; destruct (la =? 0), (lb =? 0); try destruct (lc =? 0); cbn; reflexivity.
  Qed.

  (** ** The search *)
  Lemma disjoint_parent_zero q r : wf d q -> wf d r -> 0 < ql q -> 0 < ql r ->
    (disjoint_parent d q r = 0 <-> inn (parent d q) (parent d r) \/ inn (parent d r) (parent d q)) /\
    (disjoint_parent d q r < 0 <-> qend d (parent d q) <= qpos d (parent d r)) /\ (disjoint_parent d q r > 0 <-> qend d (parent d r) <= qpos d (parent d q)).
  Proof.
    intros Wq Wr Lq Lr. pose proof (wf_level d q Wq). pose proof (wf_level d r Wr).
    destruct (parent_wf d q Wq Lq) as (Wpq & Lpq & _). destruct (parent_wf d r Wr Lr) as (Wpr & Lpr & _). pose proof (parent_inn d q Wq Lq) as Jq. pose proof (parent_inn d r Wr Lr) as Jr.
    pose proof (size_pos d q Wq). pose proof (size_pos d r Wr).
    set (m := Z.min (ql q - 1) (ql r - 1)). assert (Hm : 0 <= m <= 28) by lia.
    set (dj := nz (Z.land (Z.lxor (qx q) (qx r)) (Z.lnot (Z.shiftl 1 (MAXLEVEL - m) - 1))) || nz (Z.land (Z.lxor (qy q) (qy r)) (Z.lnot (Z.shiftl 1 (MAXLEVEL - m) - 1)))
     || (is3 d && nz (Z.land (Z.lxor (qz q) (qz r)) (Z.lnot (Z.shiftl 1 (MAXLEVEL - m) - 1))))).
    assert (ONE : forall a b, nz (Z.land (Z.lxor a b) (Z.lnot (Z.shiftl 1 (MAXLEVEL - m) - 1))) = false <-> a / side m = b / side m).
    { intros a b. change MAXLEVEL with 30. rewrite Z.shiftl_mul_pow2, Z.mul_1_l by lia. rewrite land_lnot_mask by lia. unfold side. rewrite <- (lxor_div a b (30 - m)) by lia. unfold nz.
      pose proof (Z.pow_pos_nonneg 2 (30 - m) ltac:(lia) ltac:(lia)). split; [intros E; apply negb_false_iff in E; assert (Z.lxor a b / 2 ^ (30 - m) * 2 ^ (30 - m) = 0) by lia; nia|intros ->; reflexivity]. }
    assert (AN : dj = false <-> ancestor d q m = ancestor d r m).
    { rewrite (coords_same_block d q r m Wq Wr) by lia. unfold dj. rewrite !orb_false_iff, !ONE. pose proof (wf_z d q Wq) as Zq. pose proof (wf_z d r Wr) as Zr. destruct d; cbn [is3 andb].
      - rewrite (Zq eq_refl), (Zr eq_refl). intuition.
      - rewrite ONE. intuition. }
    assert (CM : ancestor d q m = ancestor d r m <-> inn (parent d q) (parent d r) \/ inn (parent d r) (parent d q)).
    { destruct (ancestor_wf d q m Wq ltac:(lia)) as (Waq & Laq & _). destruct (ancestor_wf d r m Wr ltac:(lia)) as (War & Lar & _).
      pose proof (ancestor_contains d q m Wq ltac:(lia)) as Cq. pose proof (ancestor_contains d r m Wr ltac:(lia)) as Cr. split.
      - intros E. destruct (Z_le_dec (ql q) (ql r)) as [C|C].
        + left. assert (EP : ancestor d q m = parent d q) by (rewrite (parent_ancestor d q Wq Lq); f_equal; lia). rewrite <- EP, E. apply (inn_parent d); auto. lia.
        + right. assert (EP : ancestor d r m = parent d r) by (rewrite (parent_ancestor d r Wr Lr); f_equal; lia). rewrite <- EP, <- E. apply (inn_parent d); auto. lia.
      - intros [I|I].
        + pose proof (inn_level d _ _ Wpq Wpr I). assert (EP : ancestor d q m = parent d q) by (rewrite (parent_ancestor d q Wq Lq); f_equal; lia).
          apply (inn_eq d); auto; [|lia]. rewrite EP. apply (nested_pt d (parent d q) (ancestor d r m) (qpos d r)); auto; lia.
        + pose proof (inn_level d _ _ Wpr Wpq I). assert (EP : ancestor d r m = parent d r) by (rewrite (parent_ancestor d r Wr Lr); f_equal; lia).
          symmetry. apply (inn_eq d); auto; [|lia]. rewrite EP. apply (nested_pt d (parent d r) (ancestor d q m) (qpos d q)); auto; lia. }
    assert (EQ : disjoint_parent d q r = if dj then compare d q r else 0) by reflexivity. rewrite EQ.
    assert (NEST : inn (parent d q) (parent d r) \/ inn (parent d r) (parent d q) \/ qend d (parent d q) <= qpos d (parent d r) \/ qend d (parent d r) <= qpos d (parent d q)).
    { destruct (Z_le_dec (ql (parent d q)) (ql (parent d r))) as [C|C]; [destruct (nested d _ _ Wpq Wpr C) as [X|[X|X]]|destruct (nested d _ _ Wpr Wpq ltac:(lia)) as [X|[X|X]]]; auto. }
    pose proof (size_pos d _ Wpq). pose proof (size_pos d _ Wpr). destruct (compare_wf d q r Wq Wr) as (C1 & C2 & C3).
    destruct dj.
    - assert (NC : ~ (inn (parent d q) (parent d r) \/ inn (parent d r) (parent d q))) by (rewrite <- CM, <- AN; discriminate).
      assert (CASE : qend d (parent d q) <= qpos d (parent d r) \/ qend d (parent d r) <= qpos d (parent d q)) by tauto.
      assert (N0 : compare d q r <> 0). { rewrite C2. intros ->. apply NC. left. lia. }
      destruct CASE as [X|X].
      + assert (compare d q r < 0) by (apply C1; lia). split; [split; [lia|tauto]|]. split; [tauto|]. split; lia.
      + assert (compare d q r > 0) by (apply C3; lia). split; [split; [lia|tauto]|]. split; [split; lia|tauto].
    - assert (NC : inn (parent d q) (parent d r) \/ inn (parent d r) (parent d q)) by (apply CM, AN; reflexivity). split; [tauto|]. split; split; lia.
  Qed.

  (** the contract of bsearch in the C standard for this comparison: in an array with first the elements less than the
      key, then those equal to it, then the greater ones, it finds an equal element if there is one *)
  Definition bsearch_ok (bsearch : list quad -> quad -> option nat) : Prop := forall l key,
    StronglySorted (fun x y => Z.sgn (disjoint_parent d key y) <= Z.sgn (disjoint_parent d key x)) l ->
    match bsearch l key with
    | Some i => exists r, nth_error l i = Some r /\ disjoint_parent d key r = 0
    | None => forall r, In r l -> disjoint_parent d key r <> 0
    end.

  Lemma reps_sorted key l : wf d key -> 0 < ql key -> (forall r, In r l -> wf d r /\ 0 < ql r) -> StronglySorted (fun r s => qend d (parent d r) <= qpos d (parent d s)) l ->
    StronglySorted (fun x y => Z.sgn (disjoint_parent d key y) <= Z.sgn (disjoint_parent d key x)) l.
  Proof.
    intros Wk Lk H S. induction S as [|r l S IH F]; constructor; [apply IH; intros; apply H; right; assumption|]. rewrite Forall_forall in *. intros s Hs. specialize (F s Hs).
    destruct (H r (or_introl eq_refl)) as (Wr & Lr). destruct (H s (or_intror Hs)) as (Ws & Ls).
    destruct (disjoint_parent_zero key r Wk Wr Lk Lr) as (A0 & A1 & A2). destruct (disjoint_parent_zero key s Wk Ws Lk Ls) as (B0 & B1 & B2).
    destruct (parent_wf d r Wr Lr) as (Wpr & _). destruct (parent_wf d s Ws Ls) as (Wps & _). destruct (parent_wf d key Wk Lk) as (Wpk & _).
    pose proof (size_pos d _ Wpr). pose proof (size_pos d _ Wps). pose proof (size_pos d _ Wpk).
    destruct (Z_lt_le_dec (disjoint_parent d key r) 0) as [C|C].
    - assert (disjoint_parent d key s < 0) by (apply B1; apply A1 in C; lia). rewrite !Z.sgn_neg by lia. lia.
    - destruct (Z_lt_le_dec 0 (disjoint_parent d key s)) as [D|D].
      + assert (disjoint_parent d key r > 0) by (apply A2; assert (D' : disjoint_parent d key s > 0) by lia; apply B2 in D'; lia). rewrite !Z.sgn_pos by lia. lia.
      + assert (Z.sgn (disjoint_parent d key s) <= 0) by (apply Z.sgn_nonpos; lia). assert (0 <= Z.sgn (disjoint_parent d key r)) by (apply Z.sgn_nonneg; lia). lia.
  Qed.

  (** ** Closed sets of quadrants that have children *)
  Definition closed (k : Z) (dom : quad) (S : quad -> Prop) : Prop :=
    (forall p, S p -> wf d p /\ inn dom p) /\
    (forall p q, S p -> wf d q -> inn dom q -> inn q p -> S q) /\
    (forall p o, S p -> ql dom < ql p -> offset d k o -> wf d (shift p o) -> inn dom (shift p o) -> S (parent d (shift p o))).
End H.
