(** * Lemmas for the range boundaries *)

From Coq Require Import ZArith List Bool Lia ZifyBool.
From Verif Require Import Quad Spec Morton ZBits Interval QuadLemmas CompareLemmas DescLemmas SuccLemmas RegionLemmas Search SearchLemmas SearchLocal
  Partition ListLemmas PartLemmas BalanceBasics BalanceGeom RangeBound.
Import ListNotations.
Open Scope Z_scope.

(** ** The faces, edges and corners: per axis free, lower or upper *)
Definition obj := (option bool * option bool * option bool)%type.

Definition face_obj (f : Z) : obj :=
  let b := Some (Z.odd f) in
  match f / 2 with 0 => (b, None, None) | 1 => (None, b, None) | _ => (None, None, b) end.
Definition edge_obj (e : Z) : obj :=
  let b0 := Some (Z.odd e) in let b1 := Some (Z.odd (e / 2)) in
  match e / 4 with 0 => (None, b0, b1) | 1 => (b0, None, b1) | _ => (b0, b1, None) end.
Definition corner_obj (d : dim) (c : Z) : obj :=
  (Some (Z.odd c), Some (Z.odd (c / 2)), match d with D2 => None | D3 => Some (Z.odd (c / 4)) end).

Definition bit_obj (d : dim) (i : Z) : obj :=
  match d with
  | D2 => if i <? 4 then face_obj i else corner_obj D2 (i - 4)
  | D3 => if i <? 6 then face_obj i else if i <? 18 then edge_obj (i - 6) else corner_obj D3 (i - 18)
  end.
Definition nbits (d : dim) : Z := match d with D2 => 8 | D3 => 26 end.

(** child number c is at the object *)
Definition mt_axis (o : option bool) (b : bool) : bool := match o with None => true | Some v => Bool.eqb v b end.
Definition mt (d : dim) (c : Z) (o : obj) : bool :=
  let '(a, b, e) := o in
  mt_axis a (nz (Z.land c 1)) && mt_axis b (nz (Z.land c 2)) && (negb (is3 d) || mt_axis e (nz (Z.land c 4))).

Definition tab (d : dim) (c : Z) : Z := nth (Z.to_nat c) (corner_boundaries d) 0.

Lemma small_ind (P : Z -> Prop) : forall n, (forall k, (k < n)%nat -> P (Z.of_nat k)) -> forall c, 0 <= c < Z.of_nat n -> P c.
Proof. intros n H c Hc. rewrite <- (Z2Nat.id c) by lia. apply H. lia. Qed.

Lemma childrenn_children d : Z.of_nat (childrenn d) = children d.
Proof. destruct d; reflexivity. Qed.

Lemma tab_mt d c i : 0 <= c < children d -> 0 <= i < nbits d -> Z.testbit (tab d c) i = mt d c (bit_obj d i).
Proof.
  intros Hc Hi.
  assert (F : forallb (fun c => forallb (fun i => Bool.eqb (Z.testbit (tab d (Z.of_nat c)) (Z.of_nat i)) (mt d (Z.of_nat c) (bit_obj d (Z.of_nat i))))
    (seq 0 (Z.to_nat (nbits d)))) (seq 0 (childrenn d)) = true) by (destruct d; vm_compute; reflexivity).
  rewrite forallb_forall in F. specialize (F (Z.to_nat c)). rewrite Z2Nat.id in F by lia. rewrite forallb_forall in F.
  assert (I : In (Z.to_nat c) (seq 0 (childrenn d))) by (apply in_seq; pose proof (childrenn_children d); lia).
  specialize (F I (Z.to_nat i)). rewrite Z2Nat.id in F by lia. apply eqb_prop. apply F. apply in_seq. lia.
Qed.

Lemma get_tab d c : 0 <= c < children d -> zget (corner_boundaries d) c = Some (tab d c).
Proof.
  intros H. rewrite zget_nth by lia. unfold tab. apply nth_error_nth'. destruct d; cbn in H |- *; lia.
Qed.

(** some child is at the object *)
Definition pick (d : dim) (o : obj) : Z :=
  let '(a, b, e) := o in
  (if a then match a with Some true => 1 | _ => 0 end else 0) + (match b with Some true => 2 | _ => 0 end)
  + (if is3 d then match e with Some true => 4 | _ => 0 end else 0).
Lemma pick_mt d o : 0 <= pick d o < children d /\ mt d (pick d o) o = true.
Proof. destruct o as ((a, b), e). destruct d, a as [[]|], b as [[]|], e as [[]|]; vm_compute; auto; repeat split; discriminate. Qed.

(** ** Touching: quadrant s in quadrant b touches an object of b *)
Definition touch_axis (o : option bool) (b lb s ls : Z) : Prop :=
  match o with None => True | Some false => s = b | Some true => s + side ls = b + side lb end.
Definition touches (d : dim) (b s : quad) (o : obj) : Prop :=
  let '(ox, oy, oz) := o in
  touch_axis ox (qx b) (ql b) (qx s) (ql s) /\ touch_axis oy (qy b) (ql b) (qy s) (ql s) /\
  match d with D2 => True | D3 => touch_axis oz (qz b) (ql b) (qz s) (ql s) end.

Section G.
  Variable d : dim.

  Lemma child_xyz q c : wf d q -> ql q < 29 -> 0 <= c < children d ->
    qx (child d q c) = qx q + (if nz (Z.land c 1) then side (ql q + 1) else 0) /\
    qy (child d q c) = qy q + (if nz (Z.land c 2) then side (ql q + 1) else 0) /\
    (d = D3 -> qz (child d q c) = qz q + (if nz (Z.land c 4) then side (ql q + 1) else 0)).
  Proof.
    intros W L0 Hc. pose proof (wf_level d q W) as L.
    destruct (wf_elim d q W) as (X & Y & Z0 & Ex & Ey & Ez & _).
    assert (S2 : side (ql q) = 2 ^ (30 - (ql q + 1) + 1)) by (unfold side; f_equal; lia).
    assert (E : forall T (b : bool), (if b then Z.lor (T * side (ql q)) (side (ql q + 1)) else T * side (ql q))
                = T * side (ql q) + (if b then side (ql q + 1) else 0)).
    { intros T b. destruct b; [|lia]. rewrite S2. unfold side at 1. rewrite lor_bit_even by lia. reflexivity. }
    unfold child. rewrite QLEN_side by lia. cbn [qx qy qz]. rewrite Ex, Ey, Ez, !E. split; [reflexivity|]. split; [reflexivity|].
    intros ->. cbn [is3 andb]. reflexivity.
  Qed.

  Lemma aligned_le a la s ls : 0 <= la <= ls -> ls <= 30 -> (exists A, a = A * side la) -> (exists B, s = B * side ls) ->
    a <= s < a + side la -> s + side ls <= a + side la.
  Proof.
    intros L1 L2 (A & ->) (B & ->) H. pose proof (side_split la ls ltac:(lia)) as E. pose proof (side_pos ls ltac:(lia)) as P.
    rewrite E in *. rewrite Z.mul_assoc in *.
    assert (B < A * 2 ^ (ls - la) + 2 ^ (ls - la)).
    { apply (Z.mul_lt_mono_pos_r (side ls)); [lia|]. rewrite Z.mul_add_distr_r. lia. }
    assert ((B + 1) * side ls <= (A * 2 ^ (ls - la) + 2 ^ (ls - la)) * side ls) by (apply Z.mul_le_mono_nonneg_r; lia). lia.
  Qed.

  Lemma within_xyz a s : wf d a -> wf d s -> within d a s ->
    (qx a <= qx s /\ qx s + side (ql s) <= qx a + side (ql a)) /\ (qy a <= qy s /\ qy s + side (ql s) <= qy a + side (ql a)) /\
    (d = D3 -> qz a <= qz s /\ qz s + side (ql s) <= qz a + side (ql a)).
  Proof.
    intros Wa Ws I. apply (inn_corner d a s Wa Ws) in I. destruct I as (L & C1 & C2 & C3).
    pose proof (wf_level d a Wa). pose proof (wf_level d s Ws).
    destruct (wf_elim d a Wa) as (X & Y & Z0 & Ex & Ey & Ez & _). destruct (wf_elim d s Ws) as (X' & Y' & Z0' & Ex' & Ey' & Ez' & _).
    split; [|split].
    - split; [lia|]. apply aligned_le; eauto; lia.
    - split; [lia|]. apply aligned_le; eauto; lia.
    - intros ->. split; [lia|]. apply aligned_le; eauto; lia.
  Qed.

  Lemma touches_child b c s o : wf d b -> ql b < 29 -> 0 <= c < children d -> wf d s -> within d (child d b c) s ->
    (touches d b s o <-> mt d c o = true /\ touches d (child d b c) s o).
  Proof.
    intros Wb Lb Hc Ws I. destruct (child_wf d b c Wb Lb Hc) as (Wc & Lc & _).
    destruct (within_xyz _ _ Wc Ws I) as (X1 & X2 & X3). destruct (child_xyz b c Wb Lb Hc) as (C1 & C2 & C3).
    pose proof (wf_level d b Wb). pose proof (side_half (ql b) ltac:(lia)) as SH. pose proof (side_pos (ql b + 1) ltac:(lia)) as SP.
    pose proof (wf_level d s Ws). pose proof (side_pos (ql s) ltac:(lia)) as SS.
    rewrite Lc in *. rewrite C1, C2 in *. destruct o as ((a, e), f). unfold touches, mt. rewrite Lc, C1, C2.
    assert (ONE : forall (o : option bool) (v : bool) p t, p + (if v then side (ql b + 1) else 0) <= t /\ t + side (ql s) <= p + (if v then side (ql b + 1) else 0) + side (ql b + 1) ->
      (touch_axis o p (ql b) t (ql s) <-> mt_axis o v = true /\ touch_axis o (p + (if v then side (ql b + 1) else 0)) (ql b + 1) t (ql s))).
    { intros o v p t Ht. unfold touch_axis, mt_axis. rewrite SH. destruct o as [[]|]; [| |tauto]; destruct v; cbn [Bool.eqb]; intuition (lia || discriminate). }
    rewrite !andb_true_iff, orb_true_iff. rewrite (ONE a _ _ _ X1), (ONE e _ _ _ X2).
    destruct d; cbn [is3 negb].
    - intuition.
    - rewrite (C3 eq_refl) in *. rewrite (ONE f _ _ _ (X3 eq_refl)). intuition discriminate.
  Qed.

  Lemma touches_refl s o : touches d s s o.
  Proof. destruct o as ((a, b), c). unfold touches, touch_axis. destruct a as [[]|], b as [[]|], c as [[]|], d; auto. Qed.

  Lemma within_refl s : within d s s. Proof. unfold within. lia. Qed.

  (** a smallest quadrant that touches the object *)
  Lemma touches_some o : forall n b, wf d b -> Z.of_nat n = 29 - ql b -> exists s, wf d s /\ ql s = 29 /\ within d b s /\ touches d b s o.
  Proof.
    induction n as [|n IH]; intros b Wb E.
    - exists b. split; [exact Wb|]. split; [lia|]. split; [apply within_refl|apply touches_refl].
    - destruct (pick_mt d o) as (P & M). destruct (child_wf d b _ Wb ltac:(lia) P) as (Wc & Lc & _).
      destruct (IH _ Wc ltac:(lia)) as (s & Ws & Ls & Is & Ts). exists s. split; [exact Ws|]. split; [exact Ls|].
      split; [apply (within_trans d b (child d b (pick d o)) s); [apply child_within; auto; lia|exact Is]|].
      apply (touches_child b (pick d o) s o); auto. lia.
  Qed.

  (** the same child number on all levels *)
  Lemma touches_const c o q : wf d q -> ql q = 29 -> mt d c o = true -> forall n a, wf d a -> Z.of_nat n = 29 - ql a -> within d a q ->
    (forall l, ql a < l <= 29 -> ancestor_id d q l = c) -> touches d a q o.
  Proof.
    intros Wq Lq M. induction n as [|n IH]; intros a Wa E I H.
    - rewrite (within_eq d a q Wa Wq I) by lia. apply touches_refl.
    - destruct (anc_child d a q Wa Wq I ltac:(lia)) as (R & I'). rewrite (H (ql a + 1)) in R, I' by lia.
      destruct (child_wf d a c Wa ltac:(lia) R) as (Wc & Lc & _). apply (touches_child a c q o Wa ltac:(lia) R Wq I'). split; [exact M|].
      apply IH; auto; [lia|]. intros l Hl. apply H. lia.
  Qed.

  (** ** One end of the range *)
  Definition side_of (up : bool) (q s : quad) : Prop := if up then qpos d q <= qpos d s else qpos d s <= qpos d q.
  Definition beyond (up : bool) (cid c : Z) : Prop := if up then cid < c else c < cid.
  Definition ending (up : bool) (a q : quad) (o : obj) : Prop :=
    exists s, wf d s /\ ql s = 29 /\ within d a s /\ side_of up q s /\ touches d a s o.

  Lemma ending_step up a q o : wf d a -> ql a < 29 -> wf d q -> ql q = 29 -> within d a q ->
    let cid := ancestor_id d q (ql a + 1) in
    (ending up a q o <-> (exists c, 0 <= c < children d /\ beyond up cid c /\ mt d c o = true) \/ (mt d cid o = true /\ ending up (child d a cid) q o)).
  Proof.
    intros Wa La Wq Lq I cid. destruct (anc_child d a q Wa Wq I ltac:(lia)) as (R & I'). fold cid in R, I'. pose proof (size_pos d q Wq) as Sq. split.
    - intros (s & Ws & Ls & Is & Rs & Ts). destruct (anc_child d a s Wa Ws Is ltac:(lia)) as (Rc & Ic).
      set (c := ancestor_id d s (ql a + 1)) in *. pose proof (size_pos d s Ws) as Ss.
      apply (touches_child a c s o Wa La Rc Ws Ic) in Ts. destruct Ts as (M & Ts).
      destruct (Z.eq_dec c cid) as [E|NE].
      + right. rewrite <- E. split; [exact M|]. exists s. auto.
      + left. exists c. split; [exact Rc|]. split; [|exact M]. unfold beyond, side_of, within in *. destruct up.
        * destruct (Z.lt_ge_cases cid c); [auto|]. pose proof (child_order d a c cid Wa La ltac:(lia) ltac:(lia)). lia.
        * destruct (Z.lt_ge_cases c cid); [auto|]. pose proof (child_order d a cid c Wa La ltac:(lia) ltac:(lia)). lia.
    - intros [(c & Rc & B & M)|(M & (s & Ws & Ls & Is & Rs & Ts))].
      + destruct (child_wf d a c Wa La Rc) as (Wc & Lc & _). destruct (touches_some o (Z.to_nat (29 - (ql a + 1))) _ Wc ltac:(lia)) as (s & Ws & Ls & Is & Ts).
        exists s. split; [exact Ws|]. split; [exact Ls|]. split; [apply (within_trans d a (child d a c) s); [apply child_within; auto|exact Is]|].
        split; [|apply (touches_child a c s o); auto]. pose proof (size_pos d s Ws). unfold side_of, beyond, within in *. destruct up.
        * pose proof (child_order d a cid c Wa La ltac:(lia) ltac:(lia)). lia.
        * pose proof (child_order d a c cid Wa La ltac:(lia) ltac:(lia)). lia.
      + exists s. split; [exact Ws|]. split; [exact Ls|]. split; [apply (within_trans d a (child d a cid) s); [apply child_within; auto|exact Is]|].
        split; [exact Rs|]. apply (touches_child a cid s o); auto.
  Qed.

  Definition dirz (up : bool) : Z := if up then 1 else -1.
  Definition limz (up : bool) : Z := if up then children d else -1.

  Lemma sweep_spec (up : bool) mask : forall n cid touch, -1 <= cid <= children d ->
    (if up then 0 <= cid /\ children d - cid < Z.of_nat n else cid < children d /\ cid + 1 < Z.of_nat n) ->
    exists t, sweep d n (dirz up) (limz up) mask cid touch = Some t /\
      forall i, Z.testbit t i = true <-> Z.testbit touch i = true \/ (Z.testbit mask i = true /\
        exists c, 0 <= c < children d /\ (if up then cid <= c else c <= cid) /\ Z.testbit (tab d c) i = true).
  Proof.
    induction n as [|n IH]; intros cid touch Hc F; [destruct up; lia|]. cbn [sweep]. destruct (cid =? limz up) eqn:E.
    - exists touch. split; [reflexivity|]. intros i. split; [auto|]. intros [H|(_ & c & R & B & _)]; [exact H|]. unfold limz in E. destruct up; lia.
    - assert (R : 0 <= cid < children d) by (unfold limz in E; destruct up; lia). rewrite get_tab by exact R.
      destruct (IH (cid + dirz up) (Z.lor touch (Z.land (tab d cid) mask))) as (t & Et & H); [unfold dirz; destruct up; lia|unfold dirz; destruct up; lia|].
      exists t. split; [exact Et|]. intros i. rewrite H, Z.lor_spec, Z.land_spec, orb_true_iff, andb_true_iff. split.
      + intros [[A|(A & B)]|(A & c & Rc & B & C)]; [auto| |].
        * right. split; [exact B|]. exists cid. split; [exact R|]. split; [destruct up; lia|exact A].
        * right. split; [exact A|]. exists c. split; [exact Rc|]. split; [unfold dirz in B; destruct up; lia|exact C].
      + intros [A|(A & c & Rc & B & C)]; [auto|]. destruct (Z.eq_dec c cid) as [->|NE]; [left; auto|].
        right. split; [exact A|]. exists c. split; [exact Rc|]. split; [unfold dirz; destruct up; lia|exact C].
  Qed.

  Lemma limit_spec (up : bool) q : wf d q -> ql q = 29 -> forall n a last touch mask, wf d a -> within d a q -> ql a < last <= 29 -> 29 - ql a <= Z.of_nat n ->
    (forall l, last <= l <= 29 -> ancestor_id d q l = child_id d q) ->
    exists t, limit_boundaries d n q (dirz up) (limz up) last (ql a + 1) touch mask = Some t /\
      forall i, 0 <= i < nbits d -> (Z.testbit t i = true <-> Z.testbit touch i = true \/ (Z.testbit mask i = true /\ ending up a q (bit_obj d i))).
  Proof.
    intros Wq Lq. induction n as [|n IH]; intros a last touch mask Wa I La Hn HC; [lia|]. cbn [limit_boundaries].
    destruct (Z.land mask (Z.lnot touch) =? 0) eqn:E0.
    - exists touch. split; [reflexivity|]. intros i Hi. split; [auto|]. intros [H|(H & _)]; [exact H|].
      assert (B : Z.testbit (Z.land mask (Z.lnot touch)) i = false) by (replace (Z.land mask (Z.lnot touch)) with 0 by lia; apply Z.bits_0).
      rewrite Z.land_spec, Z.lnot_spec, H in B by lia. destruct (Z.testbit touch i); [reflexivity|discriminate].
    - destruct (anc_child d a q Wa Wq I ltac:(lia)) as (R & I'). set (cid := ancestor_id d q (ql a + 1)) in *. rewrite get_tab by exact R.
      destruct (sweep_spec up mask 9 (cid + dirz up) touch) as (t & Et & Ht);
        [unfold dirz; destruct up; lia|pose proof (children_pos d); unfold dirz; destruct up, d; cbn [children] in *; lia|].
      rewrite Et. assert (HT : forall i, 0 <= i < nbits d -> (Z.testbit t i = true <-> Z.testbit touch i = true \/
        (Z.testbit mask i = true /\ exists c, 0 <= c < children d /\ beyond up cid c /\ mt d c (bit_obj d i) = true))).
      { intros i Hi. rewrite Ht. unfold beyond, dirz. split; (intros [A|(A & c & Rc & B & C)]; [left; exact A|right; split; [exact A|exists c; split; [exact Rc|split; [destruct up; lia|]]]]).
        - rewrite <- tab_mt by auto. exact C. - rewrite tab_mt by auto. exact C. }
      destruct (child_wf d a cid Wa ltac:(lia) R) as (Wc & Lc & _).
      assert (LA : ql a < 29) by lia. pose proof (fun o : obj => ending_step up a q o Wa LA Wq Lq I) as STEP. cbv zeta in STEP. fold cid in STEP.
      destruct (ql a + 1 =? last) eqn:EL.
      + eexists. split; [reflexivity|]. intros i Hi. rewrite Z.lor_spec, Z.land_spec, orb_true_iff, andb_true_iff, (HT i Hi), (tab_mt d cid i R Hi), STEP.
        split; [intros [[A|(A & B)]|(A & B)]; [auto|auto|]|intros [A|(A & [B|(B & _)])]; auto].
        right. split; [exact B|]. right. split; [exact A|]. exists q. split; [exact Wq|]. split; [exact Lq|]. split; [exact I'|].
        split; [unfold side_of; destruct up; lia|].
        assert (EC : cid = child_id d q) by (unfold cid; apply HC; lia).
        apply (touches_const cid _ q Wq Lq A (Z.to_nat (29 - (ql a + 1))) _ Wc ltac:(lia) I'). intros l Hl. rewrite EC. apply HC. lia.
      + rewrite <- Lc. destruct (IH (child d a cid) last t (Z.land (tab d cid) mask) Wc I' ltac:(lia) ltac:(lia) HC) as (t' & Et' & Ht').
        exists t'. split; [exact Et'|]. intros i Hi. rewrite (Ht' i Hi), Z.land_spec, andb_true_iff, (HT i Hi), (tab_mt d cid i R Hi), STEP. tauto.
  Qed.
End G.

(** ** The level below which the child ids are the same *)
Lemma count_ones_spec : forall fuel a count, 32 <= Z.of_nat fuel + count -> 0 <= count <= 31 ->
  exists n, count_ones fuel a count = Some (count + n) /\ 0 <= n /\ count + n <= 31 /\
    (forall j, 0 <= j < n -> Z.testbit a j = true) /\ (count + n < 31 -> Z.testbit a n = false).
Proof.
  induction fuel as [|fuel IH]; intros a count HF HC; [lia|]. cbn [count_ones]. change MAXLEVEL with 30.
  assert (B0 : nz (Z.land a 1) = Z.testbit a 0).
  { rewrite Z.bit0_odd. change 1 with (Z.ones 1). rewrite Z.land_ones by lia. change (2 ^ 1) with 2. rewrite Zmod_odd. destruct (Z.odd a); reflexivity. }
  rewrite B0. destruct (Z.testbit a 0) eqn:T; cbn [andb].
  - destruct (count <=? 30) eqn:C.
    + destruct (IH (Z.shiftr a 1) (count + 1) ltac:(lia) ltac:(lia)) as (n & E & N1 & N2 & N3 & N4). exists (n + 1). split; [rewrite E; f_equal; lia|].
      split; [lia|]. split; [lia|]. split.
      * intros j Hj. destruct (Z.eq_dec j 0) as [->|]; [exact T|]. specialize (N3 (j - 1) ltac:(lia)). rewrite Z.shiftr_spec in N3 by lia. replace (j - 1 + 1) with j in N3 by lia. exact N3.
      * intros H. specialize (N4 ltac:(lia)). rewrite Z.shiftr_spec in N4 by lia. exact N4.
    + exists 0. split; [f_equal; lia|]. split; [lia|]. split; [lia|]. split; intros; lia.
  - exists 0. split; [f_equal; lia|]. split; [lia|]. split; [lia|]. split; [intros; lia|auto].
Qed.

Lemma low_zero Y m : 0 <= m -> (forall i, 0 <= i < m -> Z.testbit Y i = false) -> Y mod 2 ^ m = 0.
Proof.
  intros Hm H. apply Z.bits_inj'. intros i Hi. rewrite Z.bits_0. destruct (Z.lt_ge_cases i m).
  - rewrite Z.mod_pow2_bits_low by lia. apply H. lia.
  - apply Z.mod_pow2_bits_high. lia.
Qed.

Lemma low_pred X m i : 0 <= i < m -> (forall j, 0 <= j < m -> Z.testbit (X + 1) j = false) -> Z.testbit X i = true.
Proof.
  intros Hi H. pose proof (low_zero (X + 1) m ltac:(lia) H) as M.
  assert (E : (Z.lnot X) mod 2 ^ m = 0).
  { replace (Z.lnot X) with (- (X + 1)) by (pose proof (Z.add_lnot_diag X); lia). apply Z.mod_opp_l_z; [apply Z.pow_nonzero; lia|exact M]. }
  assert (T : Z.testbit (Z.lnot X mod 2 ^ m) i = false) by (rewrite E; apply Z.bits_0).
  rewrite Z.mod_pow2_bits_low, Z.lnot_spec in T by lia. destruct (Z.testbit X i); [reflexivity|discriminate].
Qed.

Lemma run_bits X n j : 1 <= j < n -> (forall i, 0 <= i < n -> Z.testbit (2 * X + (if Z.odd X then 2 else 0)) i = false) ->
  Z.testbit (2 * X) j = Z.odd X.
Proof.
  intros Hj H. replace j with (Z.succ (j - 1)) by lia. rewrite Z.testbit_even_succ by lia. destruct (Z.odd X).
  - apply (low_pred X (n - 1)); [lia|]. intros i Hi. specialize (H (Z.succ i) ltac:(lia)). replace (2 * X + 2) with (2 * (X + 1)) in H by lia.
    rewrite Z.testbit_even_succ in H by lia. exact H.
  - specialize (H (Z.succ (j - 1)) ltac:(lia)). rewrite Z.add_0_r, Z.testbit_even_succ in H by lia. exact H.
Qed.

Lemma last_level_spec d q : wf d q -> ql q = 29 -> exists L, find_last_level d q = Some L /\ L <= 29 /\
  forall l, 1 <= l -> L <= l <= 29 -> ancestor_id d q l = child_id d q.
Proof.
  intros W Lq. destruct (wf_elim d q W) as (X & Y & Z0 & Ex & Ey & Ez & _ & _ & _ & HD & _).
  destruct (child_bits d q X Y Z0 W ltac:(lia) Ex Ey Ez) as (B1 & B2 & B3). rewrite Lq in Ex, Ey, Ez. change (side 29) with 2 in Ex, Ey, Ez.
  unfold find_last_level. pose proof (child_id_range d q W) as R. set (cid := child_id d q) in *.
  assert (S1 : nz (Z.land (Z.shiftr cid 1) 1) = nz (Z.land cid 2) /\ nz (Z.shiftr cid 2) = nz (Z.land cid 4)).
  { assert (C : cid = 0 \/ cid = 1 \/ cid = 2 \/ cid = 3 \/ cid = 4 \/ cid = 5 \/ cid = 6 \/ cid = 7) by (destruct d; cbn [children] in R; lia).
    destruct C as [->|[->|[->|[->|[->|[->|[->| ->]]]]]]]; split; reflexivity. }
  destruct S1 as (-> & ->). rewrite B1, B2, B3. change (QLEN QMAXLEVEL) with 2.
  rewrite Ex, Ey, Ez, (Z.mul_comm X), (Z.mul_comm Y), (Z.mul_comm Z0).
  set (x := 2 * X + (if Z.odd X then 2 else 0)). set (y := 2 * Y + (if Z.odd Y then 2 else 0)). set (z := 2 * Z0 + (if Z.odd Z0 then 2 else 0)).
  set (o := match d with D2 => Z.lor x y | D3 => Z.lor (Z.lor x y) z end).
  destruct (count_ones_spec 32 (Z.lnot o) 0 ltac:(lia) ltac:(lia)) as (n & -> & N1 & N2 & N3 & N4). cbn [Z.add].
  assert (LOW : forall V, exists W0, 2 * V + (if Z.odd V then 2 else 0) = 4 * W0).
  { intros V. pose proof (Zdiv2_odd_eqn V) as E. destruct (Z.odd V); [exists (Z.div2 V + 1)|exists (Z.div2 V)]; lia. }
  assert (LOWB : forall V i, 0 <= i < 2 -> Z.testbit (2 * V + (if Z.odd V then 2 else 0)) i = false).
  { intros V i Hi. destruct (LOW V) as (W0 & ->). replace (4 * W0) with (W0 * 2 ^ 2) by lia. apply Z.mul_pow2_bits_low. lia. }
  assert (N2' : 2 <= n).
  { destruct (Z.lt_ge_cases n 2) as [L|]; [|auto]. specialize (N4 ltac:(lia)). rewrite Z.lnot_spec in N4 by lia.
    unfold o in N4. destruct d; rewrite !Z.lor_spec in N4; unfold x, y, z in N4; rewrite !LOWB in N4 by lia; discriminate. }
  eexists. split; [reflexivity|]. change MAXLEVEL with 30. split; [lia|]. intros l L1 Hl.
  assert (ZERO : forall i, 0 <= i < n -> Z.testbit x i = false /\ Z.testbit y i = false /\ (d = D3 -> Z.testbit z i = false)).
  { intros i Hi. specialize (N3 i Hi). rewrite Z.lnot_spec in N3 by lia. unfold o in N3.
    destruct d; rewrite !Z.lor_spec in N3; destruct (Z.testbit x i), (Z.testbit y i), (Z.testbit z i); cbn in N3; try discriminate; auto; repeat split; discriminate. }
  assert (BIT : forall V, nz (Z.land (2 * V) (QLEN l)) = Z.testbit (2 * V) (30 - l)).
  { intros V. rewrite QLEN_side by lia. unfold side. rewrite nz_land_bit by lia. rewrite Z.testbit_odd, Z.shiftr_div_pow2 by lia. reflexivity. }
  unfold cid, child_id, ancestor_id. rewrite Lq. replace (l =? 0) with false by lia. cbn [Z.eqb].
  change (29 =? 0) with false. cbv iota. change (QLEN 29) with 2. rewrite Ex, Ey, Ez, (Z.mul_comm X), (Z.mul_comm Y), (Z.mul_comm Z0), !BIT.
  assert (B29 : forall V, nz (Z.land (2 * V) 2) = Z.odd V).
  { intros V. change 2 with (2 ^ 1) at 2. rewrite nz_land_bit by lia. change (2 ^ 1) with 2. rewrite Z.mul_comm, Z.div_mul by lia. reflexivity. }
  rewrite !B29. rewrite (run_bits X n) by (try lia; intros; apply ZERO; lia). rewrite (run_bits Y n) by (try lia; intros; apply ZERO; lia).
  destruct d; cbn [is3 andb]; [reflexivity|]. rewrite (run_bits Z0 n) by (try lia; intros; apply ZERO; auto; lia). reflexivity.
Qed.

(** ** The two ends together *)
Section R.
  Variable d : dim.

  Lemma range_end_spec up q a touch mask : wf d q -> ql q = 29 -> wf d a -> 1 <= ql a -> within d a q -> child_id d a = ancestor_id d q (ql a) ->
    exists t, range_end d q (dirz up) (limz d up) (ql a) touch (Z.land (tab d (child_id d a)) mask) = Some t /\
      forall i, 0 <= i < nbits d -> (Z.testbit t i = true <-> Z.testbit touch i = true \/
        (Z.testbit mask i = true /\ mt d (child_id d a) (bit_obj d i) = true /\ ending d up a q (bit_obj d i))).
  Proof.
    intros Wq Lq Wa La I EC. pose proof (child_id_range d a Wa) as R. unfold range_end. destruct (last_level_spec d q Wq Lq) as (L & -> & HL & HC).
    destruct (L <=? ql a) eqn:E.
    - eexists. split; [reflexivity|]. intros i Hi. rewrite Z.lor_spec, Z.land_spec, orb_true_iff, andb_true_iff, tab_mt by auto.
      split; [|tauto]. intros [A|(A & B)]; [auto|]. right. split; [exact B|]. split; [exact A|].
      exists q. split; [exact Wq|]. split; [exact Lq|]. split; [exact I|]. split; [unfold side_of; destruct up; lia|].
      pose proof (within_level d a q Wa Wq I). apply (touches_const d (child_id d a) _ q Wq Lq A (Z.to_nat (29 - ql a)) a Wa ltac:(lia) I). intros l Hl.
      rewrite EC. rewrite (HC l) by lia. symmetry. apply HC; lia.
    - destruct (limit_spec d up q Wq Lq 31 a L touch (Z.land (tab d (child_id d a)) mask) Wa I ltac:(lia) ltac:(lia)) as (t & -> & Ht); [intros l Hl; apply HC; lia|].
      eexists. split; [reflexivity|]. intros i Hi. rewrite Z.lor_spec, orb_true_iff, (Ht i Hi), Z.land_spec, andb_true_iff, tab_mt by auto. tauto.
  Qed.

  Lemma open_range_spec up q b : wf d q -> ql q = 29 -> wf d b -> ql b < 29 -> within d b q ->
    exists t, open_range d q (dirz up) (limz d up) (ql b) = Some t /\
      forall i, 0 <= i < nbits d -> (Z.testbit t i = true <-> ending d up b q (bit_obj d i)).
  Proof.
    intros Wq Lq Wb Lb I. unfold open_range. destruct (last_level_spec d q Wq Lq) as (L & -> & HL & HC). pose proof (wf_level d b Wb).
    destruct (limit_spec d up q Wq Lq 31 b (if L <=? ql b then ql b + 1 else L) 0 (all_boundaries d) Wb I) as (t & -> & Ht);
      [destruct (L <=? ql b) eqn:E; lia|lia|intros l Hl; apply HC; destruct (L <=? ql b) eqn:E; lia|].
    exists t. split; [reflexivity|]. intros i Hi. rewrite (Ht i Hi), Z.bits_0.
    assert (AB : Z.testbit (all_boundaries d) i = true).
    { destruct d; cbn [all_boundaries nbits] in *; [change 255 with (Z.ones 8)|change 67108863 with (Z.ones 26)]; apply Z.ones_spec_low; lia. }
    rewrite AB. intuition discriminate.
  Qed.

  Lemma between_spec ucid mask : forall n i touch, 0 <= i <= ucid -> ucid <= children d -> ucid - i < Z.of_nat n ->
    exists t, between d n ucid mask i touch = Some t /\
      forall j, Z.testbit t j = true <-> Z.testbit touch j = true \/ (Z.testbit mask j = true /\ exists c, i <= c < ucid /\ Z.testbit (tab d c) j = true).
  Proof.
    induction n as [|n IH]; intros i touch H0 HU HN.
    - lia.
    - cbn [between]. destruct (i <? ucid) eqn:E.
      + rewrite get_tab by lia. destruct (IH (i + 1) (Z.lor touch (Z.land (tab d i) mask)) ltac:(lia) HU ltac:(lia)) as (t & Et & H).
        exists t. split; [exact Et|]. intros j. rewrite H, Z.lor_spec, Z.land_spec, orb_true_iff, andb_true_iff. split.
        * intros [[A|(A & B)]|(A & c & Rc & C)]; [auto|right; split; [exact B|exists i; split; [lia|exact A]]|right; split; [exact A|exists c; split; [lia|exact C]]].
        * intros [A|(A & c & Rc & C)]; [auto|]. destruct (Z.eq_dec c i) as [->|]; [left; auto|]. right. split; [exact A|]. exists c. split; [lia|exact C].
      + exists touch. split; [reflexivity|]. intros j. split; [auto|]. intros [A|(_ & c & Rc & _)]; [exact A|lia].
  Qed.

  Definition inrange (a lq uq : quad) (o : obj) : Prop :=
    exists s, wf d s /\ ql s = 29 /\ within d a s /\ qpos d lq <= qpos d s /\ qpos d s <= qpos d uq /\ touches d a s o.

  Lemma inrange_same a lq uq o : wf d a -> ql a < 29 -> wf d lq -> ql lq = 29 -> wf d uq -> ql uq = 29 -> within d a lq -> within d a uq ->
    ancestor_id d lq (ql a + 1) = ancestor_id d uq (ql a + 1) -> let cid := ancestor_id d lq (ql a + 1) in
    (inrange a lq uq o <-> mt d cid o = true /\ inrange (child d a cid) lq uq o).
  Proof.
    intros Wa La Wl Ll Wu Lu Il Iu E cid. destruct (anc_child d a lq Wa Wl Il ltac:(lia)) as (R & Jl). destruct (anc_child d a uq Wa Wu Iu ltac:(lia)) as (_ & Ju).
    rewrite <- E in Ju. fold cid in R, Jl, Ju. destruct (child_wf d a cid Wa La R) as (Wc & Lc & _). split.
    - intros (s & Ws & Ls & Is & A & B & Ts). assert (Ic : within d (child d a cid) s).
      { pose proof (size_pos d s Ws); pose proof (size_pos d uq Wu). apply (nested_pt d _ s (qpos d s)); auto; unfold within in *; lia. }
      apply (touches_child d a cid s o Wa La R Ws Ic) in Ts. destruct Ts as (M & Ts). split; [exact M|]. exists s. auto 8.
    - intros (M & s & Ws & Ls & Is & A & B & Ts). exists s. split; [exact Ws|]. split; [exact Ls|].
      split; [apply (within_trans d a (child d a cid) s); [apply child_within; auto|exact Is]|]. split; [exact A|]. split; [exact B|]. apply (touches_child d a cid s o); auto.
  Qed.

  Lemma inrange_split a lq uq o : wf d a -> ql a < 29 -> wf d lq -> ql lq = 29 -> wf d uq -> ql uq = 29 -> within d a lq -> within d a uq ->
    let lcid := ancestor_id d lq (ql a + 1) in let ucid := ancestor_id d uq (ql a + 1) in lcid < ucid ->
    (inrange a lq uq o <-> (exists c, lcid + 1 <= c < ucid /\ mt d c o = true) \/ (mt d lcid o = true /\ ending d true (child d a lcid) lq o) \/
       (mt d ucid o = true /\ ending d false (child d a ucid) uq o)).
  Proof.
    intros Wa La Wl Ll Wu Lu Il Iu lcid ucid HLU. destruct (anc_child d a lq Wa Wl Il ltac:(lia)) as (Rl & Jl). destruct (anc_child d a uq Wa Wu Iu ltac:(lia)) as (Ru & Ju).
    fold lcid in Rl, Jl. fold ucid in Ru, Ju. pose proof (size_pos d lq Wl) as Sl. pose proof (size_pos d uq Wu) as Su.
    pose proof (child_order d a lcid ucid Wa La ltac:(lia) ltac:(lia)) as CO. split.
    - intros (s & Ws & Ls & Is & A & B & Ts). destruct (anc_child d a s Wa Ws Is ltac:(lia)) as (Rc & Ic). set (c := ancestor_id d s (ql a + 1)) in *.
      apply (touches_child d a c s o Wa La Rc Ws Ic) in Ts. destruct Ts as (M & Ts). pose proof (size_pos d s Ws) as Ss.
      destruct (Z.eq_dec c lcid) as [<-|N1]; [right; left; split; [exact M|]; exists s; auto|].
      destruct (Z.eq_dec c ucid) as [<-|N2]; [right; right; split; [exact M|]; exists s; auto|].
      left. exists c. split; [|exact M]. unfold within in *.
      assert (lcid < c) by (destruct (Z.lt_ge_cases lcid c); [auto|]; pose proof (child_order d a c lcid Wa La ltac:(lia) ltac:(lia)); lia).
      assert (c < ucid) by (destruct (Z.lt_ge_cases c ucid); [auto|]; pose proof (child_order d a ucid c Wa La ltac:(lia) ltac:(lia)); lia). lia.
    - intros [(c & Rc & M)|[(M & s & Ws & Ls & Is & A & Ts)|(M & s & Ws & Ls & Is & A & Ts)]].
      + destruct (child_wf d a c Wa La ltac:(lia)) as (Wc & Lc & _). pose proof (wf_level d a Wa).
        destruct (touches_some d o (Z.to_nat (29 - (ql a + 1))) _ Wc ltac:(lia)) as (s & Ws & Ls & Is & Ts).
        exists s. split; [exact Ws|]. split; [exact Ls|]. split; [apply (within_trans d a (child d a c) s); [apply child_within; auto; lia|exact Is]|].
        pose proof (size_pos d s Ws). pose proof (child_order d a lcid c Wa La ltac:(lia) ltac:(lia)). pose proof (child_order d a c ucid Wa La ltac:(lia) ltac:(lia)).
        unfold within in *. split; [lia|]. split; [lia|]. apply (touches_child d a c s o); auto. lia.
      + exists s. split; [exact Ws|]. split; [exact Ls|]. split; [apply (within_trans d a (child d a lcid) s); [apply child_within; auto|exact Is]|].
        split; [exact A|]. pose proof (size_pos d s Ws). unfold side_of, within in *. split; [lia|]. apply (touches_child d a lcid s o); auto.
      + exists s. split; [exact Ws|]. split; [exact Ls|]. split; [apply (within_trans d a (child d a ucid) s); [apply child_within; auto|exact Is]|].
        pose proof (size_pos d s Ws). unfold side_of, within in *. split; [lia|]. split; [exact A|]. apply (touches_child d a ucid s o); auto.
  Qed.

  Lemma range_spec lq uq : wf d lq -> ql lq = 29 -> wf d uq -> ql uq = 29 -> qpos d lq < qpos d uq ->
    let al := ql (nearest_common_ancestor d lq uq) in
    forall n a mask, wf d a -> within d a lq -> within d a uq -> ql a <= al -> 29 - ql a <= Z.of_nat n ->
    exists t, range_boundaries d n lq uq al (ql a + 1) mask = Some t /\
      forall i, 0 <= i < nbits d -> (Z.testbit t i = true <-> Z.testbit mask i = true /\ inrange a lq uq (bit_obj d i)).
  Proof.
    intros Wl Ll Wu Lu LT al. destruct (nca_spec d lq uq Wl Wu) as (Wn & Nl & Nu & MIN). cbv zeta in *. fold (within d (nearest_common_ancestor d lq uq) lq) in Nl. fold (within d (nearest_common_ancestor d lq uq) uq) in Nu.
    set (nca := nearest_common_ancestor d lq uq) in *. assert (Ln : ql nca < 29).
    { pose proof (wf_level d nca Wn). destruct (Z.eq_dec (ql nca) 29) as [E|]; [|lia].
      rewrite <- (within_eq d nca lq Wn Wl Nl) in LT by lia. rewrite <- (within_eq d nca uq Wn Wu Nu) in LT by lia. lia. }
    induction n as [|n IH]; intros a mask Wa Il Iu La Hn; [lia|]. cbn [range_boundaries].
    destruct (mask =? 0) eqn:EM.
    { exists 0. split; [reflexivity|]. intros i Hi. replace mask with 0 by lia. rewrite Z.bits_0. intuition discriminate. }
    destruct (anc_child d a lq Wa Wl Il ltac:(lia)) as (Rl & Jl). destruct (anc_child d a uq Wa Wu Iu ltac:(lia)) as (Ru & Ju).
    destruct (MIN a Wa (proj1 Il) (proj2 Il) (proj1 Iu) (proj2 Iu)) as (MA & MB).
    set (lcid := ancestor_id d lq (ql a + 1)) in *. set (ucid := ancestor_id d uq (ql a + 1)) in *.
    pose proof (wf_level d a Wa) as LLa.
    destruct (ql a + 1 =? al + 1) eqn:EL.
    - assert (EA : a = nca) by (apply (within_eq d a nca Wa Wn); [split; auto|lia]).
      assert (HLU : lcid < ucid).
      { destruct (Z.lt_trichotomy lcid ucid) as [?|[E|G]]; [auto| |].
        - exfalso. destruct (child_wf d a lcid Wa ltac:(lia) Rl) as (Wc & Lc & _). rewrite <- E in Ju.
          destruct (MIN _ Wc (proj1 Jl) (proj2 Jl) (proj1 Ju) (proj2 Ju)) as (Q1 & Q2).
          pose proof (within_level d (child d a lcid) nca Wc Wn ltac:(split; auto)). lia.
        - exfalso. pose proof (child_order d a ucid lcid Wa ltac:(lia) ltac:(lia) ltac:(lia)). pose proof (size_pos d uq Wu). unfold within in *. lia. }
      rewrite !get_tab by assumption.
      destruct (between_spec ucid mask 9 (lcid + 1) 0 ltac:(lia) ltac:(lia) ltac:(destruct d; cbn [children] in *; lia)) as (t0 & -> & H0).
      destruct (child_wf d a lcid Wa ltac:(lia) Rl) as (Wcl & Lcl & _). destruct (child_wf d a ucid Wa ltac:(lia) Ru) as (Wcu & Lcu & _).
      pose proof (child_mod d a lcid Wa ltac:(lia) Rl) as El. pose proof (child_mod d a ucid Wa ltac:(lia) Ru) as Eu.
      destruct (range_end_spec true lq (child d a lcid) t0 mask Wl Ll Wcl ltac:(lia) Jl ltac:(rewrite El, Lcl; reflexivity)) as (t1 & E1 & H1).
      cbn [dirz limz] in E1. rewrite El, Lcl in E1. rewrite E1.
      destruct (range_end_spec false uq (child d a ucid) t1 mask Wu Lu Wcu ltac:(lia) Ju ltac:(rewrite Eu, Lcu; reflexivity)) as (t2 & E2 & H2).
      cbn [dirz limz] in E2. rewrite Eu, Lcu in E2. rewrite E2. exists t2. split; [reflexivity|]. intros i Hi.
      rewrite El in H1. rewrite Eu in H2.
      rewrite (H2 i Hi), (H1 i Hi), H0, Z.bits_0. pose proof (inrange_split a lq uq (bit_obj d i) Wa ltac:(lia) Wl Ll Wu Lu Il Iu) as SP. cbv zeta in SP. fold lcid ucid in SP. rewrite (SP HLU).
      assert (TT : (exists c, lcid + 1 <= c < ucid /\ Z.testbit (tab d c) i = true) <-> (exists c, lcid + 1 <= c < ucid /\ mt d c (bit_obj d i) = true)).
      { split; intros (c & Rc & C); exists c; (split; [exact Rc|]); [rewrite <- tab_mt by lia|rewrite tab_mt by lia]; exact C. }
      rewrite TT. intuition discriminate.
    - rewrite get_tab by exact Rl. assert (EC : lcid = ucid).
      { apply (child_unique d a nca lcid ucid Wa ltac:(lia) Wn Rl Ru).
        - destruct (child_wf d a lcid Wa ltac:(lia) Rl) as (Wc & Lc & _). pose proof (size_pos d lq Wl). apply (nested_pt d _ nca (qpos d lq)); auto; unfold within in *; lia.
        - destruct (child_wf d a ucid Wa ltac:(lia) Ru) as (Wc & Lc & _). pose proof (size_pos d uq Wu). apply (nested_pt d _ nca (qpos d uq)); auto; unfold within in *; lia. }
      destruct (child_wf d a lcid Wa ltac:(lia) Rl) as (Wc & Lc & _). rewrite <- EC in Ju.
      destruct (IH (child d a lcid) (Z.land (tab d lcid) mask) Wc Jl Ju ltac:(lia) ltac:(lia)) as (t & Et & Ht). rewrite Lc in Et. rewrite Et.
      exists t. split; [reflexivity|]. intros i Hi. rewrite (Ht i Hi), Z.land_spec, andb_true_iff, tab_mt by auto.
      pose proof (inrange_same a lq uq (bit_obj d i) Wa ltac:(lia) Wl Ll Wu Lu Il Iu EC) as SM. cbv zeta in SM. fold lcid in SM. rewrite SM. tauto.
  Qed.
End R.
