(** * Which reads of p4est_connectivity_is_valid stay inside the arrays *)

From Coq Require Import ZArith List Bool Lia ZifyBool.
From Verif Require Import Quad Spec Neighbor Transform Partition Conn ConnLemmas.
Import ListNotations.
Open Scope Z_scope.

Lemma slice_pairs (ts cs : list Z) b n l1 l2 : zslice ts b n = Some l1 -> zslice cs b n = Some l2 ->
  forall x y, In (x, y) (combine l1 l2) <-> exists j, b <= j < b + Z.of_nat n /\ zget ts j = Some x /\ zget cs j = Some y.
Proof.
  revert b l1 l2. induction n as [|n IH]; intros b l1 l2; cbn [zslice].
  - intros E1 E2 x y. injection E1 as <-. injection E2 as <-. cbn. split; [tauto|]. intros (j & H & _). lia.
  - destruct (zget ts b) as [t|] eqn:T; [|discriminate]. destruct (zslice ts (b + 1) n) as [r1|] eqn:R1; [|discriminate].
    destruct (zget cs b) as [k|] eqn:K; [|discriminate]. destruct (zslice cs (b + 1) n) as [r2|] eqn:R2; [|discriminate].
    intros E1 E2 x y. injection E1 as <-. injection E2 as <-. cbn [combine In]. rewrite (IH _ _ _ R1 R2). split.
    + intros [E|(j & Hj & G)]; [injection E as <- <-; exists b; split; [lia|auto] | exists j; split; [lia|auto]].
    + intros (j & Hj & G1 & G2). destruct (Z.eq_dec j b) as [->|N].
      * left. congruence.
      * right. exists j. split; [lia|auto].
Qed.

(** the arrays have the sizes that p4est_connectivity_new allocates *)
Definition allocated (d : dim) (c : conn) : Prop :=
  0 <= c_nv c /\ 0 <= c_nt c /\ 0 <= c_ne c /\ 0 <= c_nc c /\
  (0 < c_nv c -> exists l, c_ttv c = Some l /\ zlen l = c_nt c * children d) /\
  zlen (c_ttt c) = c_nt c * faces d /\ zlen (c_ttf c) = c_nt c * faces d /\
  (d = D3 -> zlen (c_eoff c) = c_ne c + 1 /\
     (0 < c_ne c -> zlen (c_tte c) = c_nt c * 12 /\ zlen (c_ete c) = zlen (c_ett c) /\
                    zget (c_eoff c) (c_ne c) = Some (zlen (c_ett c)))) /\
  zlen (c_coff c) = c_nc c + 1 /\
  (0 < c_nc c -> zlen (c_ttc c) = c_nt c * children d /\ zlen (c_ctc c) = zlen (c_ctt c) /\
                 zget (c_coff c) (c_nc c) = Some (zlen (c_ctt c))).

(** entries that the function uses as indices before it has looked at them *)
Definition indices_ok (n : Z) (tt off : list Z) : Prop :=
  (n = 0 -> zget off 0 = Some 0) /\ (forall x, In x tt -> -1 <= x < n) /\ (forall x, zget off 0 = Some x -> 0 <= x).

Lemma faces_cases d : faces d = 4 \/ faces d = 6.
Proof. destruct d; cbn; auto. Qed.

Lemma corner_faces_range d k i : 0 <= k < children d -> 0 <= i < nd d -> 0 <= corner_faces d k i < faces d.
Proof.
  intros Hk Hi. destruct d; cbn [children nd faces] in *.
  - assert (A : k = 0 \/ k = 1 \/ k = 2 \/ k = 3) by lia. assert (B : i = 0 \/ i = 1) by lia. clear Hk Hi.
    destruct A as [A|[A|[A|A]]], B as [B|B]; subst; vm_compute; split; congruence || reflexivity.
  - assert (A : k = 0 \/ k = 1 \/ k = 2 \/ k = 3 \/ k = 4 \/ k = 5 \/ k = 6 \/ k = 7) by lia.
    assert (B : i = 0 \/ i = 1 \/ i = 2) by lia. clear Hk Hi.
    destruct A as [A|[A|[A|[A|[A|[A|[A|A]]]]]]], B as [B|[B|B]]; subst; vm_compute; split; congruence || reflexivity.
Qed.

Section Bounds.
  Variables (d : dim) (c : conn).
  Hypothesis AL : allocated d c.

  Lemma nt_pos : 0 <= c_nt c. Proof. destruct AL; tauto. Qed.

  Lemma ttt_ok t f : 0 <= t < c_nt c -> 0 <= f < faces d -> zget (c_ttt c) (t * faces d + f) <> None.
  Proof. intros Ht Hf. apply zget_ok. destruct AL as (_ & _ & _ & _ & _ & -> & _). destruct (faces_cases d) as [F|F]; rewrite F in *; lia. Qed.
  Lemma ttf_ok t f : 0 <= t < c_nt c -> 0 <= f < faces d -> zget (c_ttf c) (t * faces d + f) <> None.
  Proof. intros Ht Hf. apply zget_ok. destruct AL as (_ & _ & _ & _ & _ & _ & -> & _). destruct (faces_cases d) as [F|F]; rewrite F in *; lia. Qed.

  Lemma face_in_bounds t f : 0 <= t < c_nt c -> 0 <= f < faces d -> valid_face d c t f <> None.
  Proof.
    intros Ht Hf. unfold valid_face. apply with_ok; [apply ttt_ok; auto|]. intros nt _.
    apply andthen_ok; [discriminate|]. intros R. apply some_true in R. apply range_true in R.
    apply with_ok; [apply ttf_ok; auto|]. intros code _.
    apply andthen_ok; [discriminate|]. intros R2. apply some_true in R2. apply range_true in R2. cbv zeta.
    apply andthen_ok; [discriminate|]. intros _.
    destruct (dim_div_mod d code ltac:(lia)) as (M & _).
    destruct (negb (nt =? t) || negb (code mod faces d =? f)); [|discriminate].
    apply with_ok; [apply ttt_ok; auto|]. intros x _. apply andthen_ok; [discriminate|]. intros _.
    apply with_ok; [apply ttf_ok; auto|]. discriminate.
  Qed.

  (** the faces of tree t have been accepted *)
  Variable t : Z.
  Hypothesis Ht : 0 <= t < c_nt c.
  Hypothesis FA : forall f, 0 <= f < faces d -> valid_face d c t f = Some true.

  Lemma face_read f : 0 <= f < faces d -> exists nt code,
    zget (c_ttt c) (faces d * t + f) = Some nt /\ zget (c_ttf c) (faces d * t + f) = Some code /\ in_range code 0 (faces d * half d) = true.
  Proof.
    intros Hf. destruct (valid_face_true _ _ _ _ (FA f Hf)) as (nt & code & E1 & E2 & _ & R & _).
    exists nt, code. replace (faces d * t + f) with (t * faces d + f) by lia. repeat split; auto. apply range_true. auto.
  Qed.

  Lemma corner_distinct_ok k : 0 <= k < children d -> corner_faces_distinct d c t k <> None.
  Proof.
    intros Hk. unfold corner_faces_distinct.
    assert (I : forall i, In i (match d with D2 => [0; 1] | D3 => [0; 1; 2] end) -> 0 <= i < nd d)
      by (destruct d; cbn; intros i Hi; intuition lia).
    revert I. generalize (match d with D2 => [0; 1] | D3 => [0; 1; 2] end). generalize [(t, k)]. intros l0 is. revert l0.
    induction is as [|i is IH]; intros l0 I; cbn [fold_left]; [discriminate|]. cbv zeta.
    destruct (face_read _ (corner_faces_range d k i Hk (I i (or_introl eq_refl)))) as (nt & code & -> & -> & ->). cbn [negb].
    destruct (negb (nt =? t) || negb (code =? corner_faces d k i)); apply IH; intros; apply I; right; auto.
  Qed.
End Bounds.

(** ** edges *)
Lemma edge_faces_range e i : 0 <= e < 12 -> 0 <= i < 2 -> 0 <= edge_faces e i < 6.
Proof.
  intros He Hi.
  assert (A : e = 0 \/ e = 1 \/ e = 2 \/ e = 3 \/ e = 4 \/ e = 5 \/ e = 6 \/ e = 7 \/ e = 8 \/ e = 9 \/ e = 10 \/ e = 11) by lia.
  assert (B : i = 0 \/ i = 1) by lia.
  clear He Hi. destruct A as [A|[A|[A|[A|[A|[A|[A|[A|[A|[A|[A|A]]]]]]]]]]], B as [B|B]; subst; vm_compute; split; congruence || reflexivity.
Qed.
Lemma corner_edges_range k i : 0 <= k < 8 -> 0 <= i < 3 -> 0 <= corner_edges k i < 12.
Proof.
  intros Hk Hi.
  assert (A : k = 0 \/ k = 1 \/ k = 2 \/ k = 3 \/ k = 4 \/ k = 5 \/ k = 6 \/ k = 7) by lia.
  assert (B : i = 0 \/ i = 1 \/ i = 2) by lia.
  clear Hk Hi. destruct A as [A|[A|[A|[A|[A|[A|[A|A]]]]]]], B as [B|[B|B]]; subst; vm_compute; split; congruence || reflexivity.
Qed.

Section Edges.
  Variable c : conn.
  Hypothesis AL : allocated D3 c.
  Variable num_ett : Z.
  Hypothesis NE : zget (c_eoff c) (c_ne c) = Some num_ett.
  Hypothesis EV : forall i, 0 <= i < num_ett -> valid_pair (c_ett c) (c_ete c) (c_nt c) 24 i = Some true.
  Variable t : Z.
  Hypothesis Ht : 0 <= t < c_nt c.
  Hypothesis FA : forall f, 0 <= f < 6 -> valid_face D3 c t f = Some true.
  Hypothesis OFF : forall a, 0 <= a < c_ne c -> valid_offset (c_eoff c) a = Some true.
  Hypothesis PE : 0 < c_ne c.
  Hypothesis IDX : indices_ok (c_ne c) (c_tte c) (c_eoff c).

  Lemma edge_distinct_ok e : 0 <= e < 12 -> exists l, edge_distinct c t e = Some l.
  Proof.
    intros He. unfold edge_distinct.
    assert (I : forall i, In i [0; 1] -> 0 <= i < 2) by (cbn; intros i Hi; lia).
    revert I. generalize [0; 1]. generalize [(t, e, 0)]. intros l0 is. revert l0.
    induction is as [|i is IH]; intros l0 I; cbn [fold_left]; [eauto|]. cbv zeta.
    destruct (face_read D3 c t FA _ (edge_faces_range e i He (I i (or_introl eq_refl)))) as (nt & code & E1 & E2 & E3).
    cbn [faces half] in *. rewrite E1, E2. change (6 * 4) with 24 in E3. rewrite E3. cbn [negb].
    destruct (negb (nt =? t) || negb (code =? edge_faces e i)); apply IH; intros; apply I; right; auto.
  Qed.

  Lemma tte_read e : 0 <= e < 12 -> exists ae, zget (c_tte c) (12 * t + e) = Some ae /\ zget (c_tte c) (t * 12 + e) = Some ae /\ -1 <= ae < c_ne c.
  Proof.
    intros He. destruct AL as (_ & _ & _ & _ & _ & _ & _ & (_ & A) & _); [reflexivity|].
    destruct (A PE) as (L & _). destruct (zget_some (c_tte c) (12 * t + e) ltac:(lia)) as (ae & E).
    exists ae. split; [auto|]. split; [rewrite <- E; f_equal; lia|]. apply zget_in in E. apply IDX. auto.
  Qed.

  Lemma eoff_read ae : 0 <= ae < c_ne c -> exists b e, zget (c_eoff c) ae = Some b /\ zget (c_eoff c) (ae + 1) = Some e /\ 0 <= b <= e /\ e <= num_ett.
  Proof.
    intros H. destruct (valid_offset_inv _ _ (OFF ae H)) as (b & e & E1 & E2 & L). exists b, e. split; [auto|]. split; [auto|].
    destruct AL as (_ & _ & _ & _ & _ & _ & _ & (A & _) & _); [reflexivity|].
    destruct (zget_some (c_eoff c) 0 ltac:(lia)) as (z & Ez). destruct IDX as (_ & _ & P). specialize (P z Ez).
    pose proof (offsets_mono _ _ OFF 0 ae ltac:(lia) ltac:(lia) _ _ Ez E1).
    pose proof (offsets_mono _ _ OFF (ae + 1) (c_ne c) ltac:(lia) ltac:(lia) _ _ E2 NE). lia.
  Qed.

  Lemma ett_len : num_ett = zlen (c_ett c) /\ zlen (c_ete c) = zlen (c_ett c).
  Proof.
    destruct AL as (_ & _ & _ & _ & _ & _ & _ & (_ & A) & _); [reflexivity|]. destruct (A PE) as (_ & B & E).
    rewrite NE in E. injection E as ->. auto.
  Qed.

  Lemma find_edge_ok e : 0 <= e < 12 -> exists ets, find_edge_transform c t e = Some ets.
  Proof.
    intros He. unfold find_edge_transform. destruct (c_ne c =? 0); [eauto|].
    destruct (tte_read e He) as (ae & -> & _ & R). destruct (ae =? -1) eqn:E; [eauto|].
    destruct (eoff_read ae ltac:(lia)) as (b & e' & -> & -> & B1 & B2). destruct (edge_distinct_ok e He) as (l & ->).
    destruct ett_len as (L1 & L2).
    destruct (zslice_some (c_ett c) (Z.to_nat (e' - b)) b ltac:(lia) ltac:(lia)) as (r1 & ->).
    destruct (zslice_some (c_ete c) (Z.to_nat (e' - b)) b ltac:(lia) ltac:(lia)) as (r2 & ->).
    destruct (find_self t e (combine r1 r2) 0). eauto.
  Qed.

  Lemma edge_loop_ok e ae : forall n i flip, 0 <= i -> i + Z.of_nat n <= num_ett -> edge_loop c t e ae n i flip <> None.
  Proof.
    induction n as [|n IH]; intros i flip Hi Hn; cbn [edge_loop]; [discriminate|].
    destruct (valid_pair_inv _ _ _ _ _ (EV i ltac:(lia))) as (nt & code & -> & -> & R1 & R2).
    assert (M : 0 <= Z.rem code 12 < 12) by (apply Z.rem_bound_pos; lia).
    destruct AL as (_ & _ & _ & _ & _ & _ & _ & (_ & A) & _); [reflexivity|]. destruct (A PE) as (L & _).
    destruct (zget_some (c_tte c) (nt * 12 + Z.rem code 12) ltac:(lia)) as (x & ->).
    destruct (x =? ae); cbn [negb]; [|discriminate].
    destruct ((nt =? t) && (Z.rem code 12 =? e)).
    - destruct (negb (flip =? -1) && (Z.quot code 12 =? flip)); [discriminate|]. apply IH; lia.
    - apply IH; lia.
  Qed.

  Lemma edge_in_bounds e : 0 <= e < 12 -> valid_edge c num_ett t e <> None.
  Proof.
    intros He. unfold valid_edge. destruct (find_edge_ok e He) as (ets & ->).
    destruct (tte_read e He) as (ae & _ & -> & R). cbn [with_].
    apply andthen_ok; [discriminate|]. intros _. destruct (ae =? -1) eqn:E; [discriminate|].
    destruct (eoff_read ae ltac:(lia)) as (b & e' & -> & -> & B1 & B2). cbn [with_].
    apply andthen_ok; [discriminate|]. intros _.
    destruct (edge_loop c t e ae (Z.to_nat (e' - b)) b (-1)) as [[|]|] eqn:F; try discriminate.
    exfalso. revert F. apply edge_loop_ok; lia.
  Qed.

  (** an accepted edge is found in its own list *)
  Lemma edge_loop_self e ae : forall n i flip r, 0 <= i -> i + Z.of_nat n <= num_ett -> edge_loop c t e ae n i flip = Some (Some r) ->
    r = flip \/ exists j code, i <= j < i + Z.of_nat n /\ zget (c_ett c) j = Some t /\ zget (c_ete c) j = Some code /\ Z.rem code 12 = e.
  Proof.
    induction n as [|n IH]; intros i flip r Hi Hn; cbn [edge_loop]; [intros H; injection H as ->; auto|].
    destruct (zget (c_ett c) i) as [nt|] eqn:E1; [|discriminate]. destruct (zget (c_ete c) i) as [code|] eqn:E2; [|discriminate].
    destruct (zget (c_tte c) (nt * 12 + Z.rem code 12)) as [x|] eqn:E3; [|discriminate].
    destruct (negb (x =? ae)); [discriminate|].
    destruct ((nt =? t) && (Z.rem code 12 =? e)) eqn:G.
    - assert (nt = t) by lia. assert (Z.rem code 12 = e) by lia. subst.
      intros _. right. exists i, code. repeat split; auto; lia.
    - intros H. destruct (IH (i + 1) flip r ltac:(lia) ltac:(lia) H) as [|(j & k & Hj & X)]; [auto|]. right. exists j, k. split; [lia|auto].
  Qed.

  Lemma find_self_in e l : (forall x y, In (x, y) l -> 0 <= y < 24) -> forall i,
    (exists y, In (t, y) l /\ Z.rem y 12 = e) -> (snd (find_self t e l i) = 0 \/ snd (find_self t e l i) = 1).
  Proof.
    induction l as [|(nt & re) l IH]; intros R i (y & I & E); [destruct I|]. cbn [find_self].
    destruct ((Z.rem re 12 =? e) && (nt =? t)) eqn:G.
    - cbn [snd]. pose proof (R nt re (or_introl eq_refl)).
      assert (Z.quot re 12 = re / 12) by (apply Z.quot_div_nonneg; lia).
      pose proof (Z.div_lt_upper_bound re 12 2). pose proof (Z.div_pos re 12). lia.
    - apply IH.
      + intros a b Hab. apply (R a b). right. auto.
      + destruct I as [I|I]; [|eauto]. exfalso. assert (nt = t) by congruence. assert (re = y) by congruence. subst re nt. rewrite E, !Z.eqb_refl in G. discriminate.
  Qed.

  Lemma collect_range dis ie fl : (fl = 0 \/ fl = 1) -> forall l i, (forall x y, In (x, y) l -> 0 <= y < 24) ->
    forall nt ne nf, In (nt, ne, nf) (edge_collect dis ie fl l i) -> 0 <= ne < 12 /\ (nf = 0 \/ nf = 1).
  Proof.
    intros Hf. induction l as [|(x & y) l IH]; intros i R nt ne nf; cbn [edge_collect]; [intros []|].
    assert (R' : forall x y, In (x, y) l -> 0 <= y < 24) by (intros a b Hab; apply (R a b); right; auto).
    destruct (i =? ie); [apply IH; auto|]. cbv zeta.
    destruct (mem_triple _ dis); [apply IH; auto|]. intros [E|I]; [|eapply IH; eauto].
    pose proof (R x y (or_introl eq_refl)) as Hy. injection E as _ <- <-. split; [apply Z.rem_bound_pos; lia|].
    assert (Q : Z.quot y 12 = 0 \/ Z.quot y 12 = 1).
    { rewrite Z.quot_div_nonneg by lia. pose proof (Z.div_lt_upper_bound y 12 2). pose proof (Z.div_pos y 12). lia. }
    destruct Q as [-> | ->], Hf as [-> | ->]; cbn; auto.
  Qed.

  Lemma find_edge_range e : 0 <= e < 12 -> valid_edge c num_ett t e = Some true ->
    exists ets, find_edge_transform c t e = Some ets /\ forall nt ne nf, In (nt, ne, nf) ets -> 0 <= ne < 12 /\ (nf = 0 \/ nf = 1).
  Proof.
    intros He V. destruct (find_edge_ok e He) as (ets & E). exists ets. split; [exact E|].
    unfold valid_edge in V. rewrite E in V. unfold find_edge_transform in E.
    destruct (c_ne c =? 0) eqn:E0; [lia|].
    destruct (tte_read e He) as (ae & E1 & E2 & R). rewrite E1 in E. rewrite E2 in V. cbn [with_] in V.
    apply andthen_true in V as (_ & V). destruct (ae =? -1) eqn:E3.
    { injection E as <-. intros ? ? ? []. }
    destruct (eoff_read ae ltac:(lia)) as (b & e' & E4 & E5 & B1 & B2). rewrite E4, E5 in E, V. cbn [with_] in V.
    apply andthen_true in V as (_ & V). destruct (edge_distinct_ok e He) as (dis & E6). rewrite E6 in E.
    destruct ett_len as (L1 & L2).
    destruct (zslice_some (c_ett c) (Z.to_nat (e' - b)) b ltac:(lia) ltac:(lia)) as (r1 & Z1). rewrite Z1 in E.
    destruct (zslice_some (c_ete c) (Z.to_nat (e' - b)) b ltac:(lia) ltac:(lia)) as (r2 & Z2). rewrite Z2 in E.
    pose proof (slice_pairs _ _ _ _ _ _ Z1 Z2) as SP.
    destruct (edge_loop c t e ae (Z.to_nat (e' - b)) b (-1)) as [[flip|]|] eqn:EL; try discriminate.
    assert (R24 : forall x y, In (x, y) (combine r1 r2) -> 0 <= y < 24).
    { intros x y I. apply SP in I as (j & Hj & X & Y).
      destruct (valid_pair_inv _ _ _ _ _ (EV j ltac:(lia))) as (nt & code & X' & Y' & _ & R2). congruence || (rewrite Y in Y'; injection Y' as ->; auto). }
    assert (SF : exists y, In (t, y) (combine r1 r2) /\ Z.rem y 12 = e).
    { destruct (edge_loop_self e ae (Z.to_nat (e' - b)) b (-1) flip ltac:(lia) ltac:(lia) EL) as [->|(j & code & Hj & X & Y & M)]; [cbn in V; discriminate|].
      exists code. split; [|auto]. apply SP. eauto. }
    pose proof (find_self_in e _ R24 0 SF) as FS.
    destruct (find_self t e (combine r1 r2) 0) as (ie & fl). cbn [snd] in FS. injection E as <-.
    intros nt ne nf I. eapply collect_range; eauto.
  Qed.
End Edges.

(** ** corners *)
Lemma add_edge_corners_ok ets w : (w = 0 \/ w = 1) -> (forall nt ne nf, In (nt, ne, nf) ets -> 0 <= ne < 12 /\ (nf = 0 \/ nf = 1)) ->
  forall l, add_edge_corners ets w l <> None.
Proof.
  intros Hw. induction ets as [|((nt & ne) & nf) ets IH]; intros R l; cbn [add_edge_corners]; [discriminate|].
  destruct (R nt ne nf (or_introl eq_refl)) as (R1 & R2). unfold edge_corner.
  assert (X : Z.lxor nf w = 0 \/ Z.lxor nf w = 1) by (destruct R2 as [-> | ->], Hw as [-> | ->]; cbn; auto).
  replace (((Z.lxor nf w =? 0) || (Z.lxor nf w =? 1)) && (0 <=? ne) && (ne <? 12)) with true by lia.
  apply IH. intros a b e I. apply (R a b e). right. auto.
Qed.

Section Corners.
  Variables (d : dim) (c : conn).
  Hypothesis AL : allocated d c.
  Variables num_ett num_ctt : Z.
  Hypothesis NE : d = D3 -> zget (c_eoff c) (c_ne c) = Some num_ett.
  Hypothesis NC : zget (c_coff c) (c_nc c) = Some num_ctt.
  Hypothesis EV : d = D3 -> forall i, 0 <= i < num_ett -> valid_pair (c_ett c) (c_ete c) (c_nt c) 24 i = Some true.
  Hypothesis CV : forall i, 0 <= i < num_ctt -> valid_pair (c_ctt c) (c_ctc c) (c_nt c) (children d) i = Some true.
  Variable t : Z.
  Hypothesis Ht : 0 <= t < c_nt c.
  Hypothesis FA : forall f, 0 <= f < faces d -> valid_face d c t f = Some true.
  Hypothesis EA : d = D3 -> 0 < c_ne c -> forall e, 0 <= e < 12 -> valid_edge c num_ett t e = Some true.
  Hypothesis EOFF : d = D3 -> forall a, 0 <= a < c_ne c -> valid_offset (c_eoff c) a = Some true.
  Hypothesis COFF : forall a, 0 <= a < c_nc c -> valid_offset (c_coff c) a = Some true.
  Hypothesis PC : 0 < c_nc c.
  Hypothesis EIDX : d = D3 -> indices_ok (c_ne c) (c_tte c) (c_eoff c).
  Hypothesis CIDX : indices_ok (c_nc c) (c_ttc c) (c_coff c).

  Lemma ttc_read k : 0 <= k < children d ->
    exists ac, zget (c_ttc c) (children d * t + k) = Some ac /\ zget (c_ttc c) (t * children d + k) = Some ac /\ -1 <= ac < c_nc c.
  Proof.
    intros Hk. destruct AL as (_ & _ & _ & _ & _ & _ & _ & _ & _ & A).
    destruct (A PC) as (L & _).
    assert (R : 0 <= children d * t + k < c_nt c * children d) by (destruct d; cbn [children] in *; lia).
    destruct (zget_some (c_ttc c) (children d * t + k) ltac:(lia)) as (ac & E).
    exists ac. split; [auto|]. split; [rewrite <- E; f_equal; lia|]. apply zget_in in E. apply CIDX. auto.
  Qed.

  Lemma coff_read ac : 0 <= ac < c_nc c -> exists b e, zget (c_coff c) ac = Some b /\ zget (c_coff c) (ac + 1) = Some e /\ 0 <= b <= e /\ e <= num_ctt.
  Proof.
    intros H. destruct (valid_offset_inv _ _ (COFF ac H)) as (b & e & E1 & E2 & L). exists b, e. split; [auto|]. split; [auto|].
    destruct AL as (_ & _ & _ & _ & _ & _ & _ & _ & A & _).
    destruct (zget_some (c_coff c) 0 ltac:(lia)) as (z & Ez). destruct CIDX as (_ & _ & P). specialize (P z Ez).
    pose proof (offsets_mono _ _ COFF 0 ac ltac:(lia) ltac:(lia) _ _ Ez E1).
    pose proof (offsets_mono _ _ COFF (ac + 1) (c_nc c) ltac:(lia) ltac:(lia) _ _ E2 NC). lia.
  Qed.

  Lemma ctt_len : num_ctt = zlen (c_ctt c) /\ zlen (c_ctc c) = zlen (c_ctt c).
  Proof.
    destruct AL as (_ & _ & _ & _ & _ & _ & _ & _ & _ & A). destruct (A PC) as (_ & B & E).
    rewrite NC in E. injection E as ->. auto.
  Qed.

  Lemma corner_edges_ok k l : d = D3 -> 0 <= k < 8 -> corner_edges_distinct c t k l <> None.
  Proof.
    intros D Hk. unfold corner_edges_distinct. destruct (c_ne c =? 0) eqn:E0; [discriminate|].
    assert (PE : 0 < c_ne c) by (destruct AL as (_ & _ & ? & _); lia).
    assert (ALe : allocated D3 c) by (rewrite <- D; exact AL).
    assert (FAe : forall f, 0 <= f < 6 -> valid_face D3 c t f = Some true) by (intros f Hf; rewrite <- D; apply FA; rewrite D; exact Hf).
    assert (I : forall i, In i [0; 1; 2] -> 0 <= i < 3) by (cbn; intros i Hi; intuition lia).
    revert I. generalize [0; 1; 2]. intros is. revert l.
    induction is as [|i is IH]; intros l I; cbn [fold_left]; [discriminate|]. cbv zeta.
    pose proof (corner_edges_range k i Hk (I i (or_introl eq_refl))) as He.
    destruct (tte_read c ALe t Ht PE (EIDX D) _ He) as (ae & -> & _).
    destruct (ae =? -1); [apply IH; intros; apply I; right; auto|].
    destruct (find_edge_range c ALe num_ett (NE D) (EV D) t Ht FAe (EOFF D) PE (EIDX D) _ He (EA D PE _ He)) as (ets & -> & R).
    destruct (add_edge_corners ets (b2z (edge_corners (corner_edges k i) 1 =? k)) l) as [l'|] eqn:EE.
    - apply IH. intros; apply I; right; auto.
    - exfalso. revert EE. apply add_edge_corners_ok; [|exact R]. destruct (edge_corners (corner_edges k i) 1 =? k); cbn; auto.
  Qed.

  Lemma find_corner_ok k : 0 <= k < children d -> exists l, find_corner_transform d c t k = Some l.
  Proof.
    intros Hk. unfold find_corner_transform. destruct (c_nc c =? 0); [eauto|].
    destruct (ttc_read k Hk) as (ac & -> & _ & R). destruct (ac =? -1) eqn:E; [eauto|].
    destruct (coff_read ac ltac:(lia)) as (b & e & -> & -> & B1 & B2).
    pose proof (corner_distinct_ok d c AL t Ht FA k Hk) as CD. destruct (corner_faces_distinct d c t k) as [l|]; [|congruence].
    assert (X : exists l', (if is3 d then corner_edges_distinct c t k l else Some l) = Some l').
    { destruct (is3 d) eqn:D; [|eauto]. assert (D' : d = D3) by (destruct d; [discriminate|auto]).
      assert (Hk' : 0 <= k < 8) by (rewrite D' in Hk; exact Hk).
      pose proof (corner_edges_ok k l D' Hk'). destruct (corner_edges_distinct c t k l) as [l'|]; [eauto|congruence]. }
    destruct X as (l' & ->). destruct ctt_len as (L1 & L2).
    destruct (zslice_some (c_ctt c) (Z.to_nat (e - b)) b ltac:(lia) ltac:(lia)) as (r1 & ->).
    destruct (zslice_some (c_ctc c) (Z.to_nat (e - b)) b ltac:(lia) ltac:(lia)) as (r2 & ->). eauto.
  Qed.

  Lemma corner_loop_ok k ac : forall n i found, 0 <= i -> i + Z.of_nat n <= num_ctt -> corner_loop d c t k ac n i found <> None.
  Proof.
    induction n as [|n IH]; intros i found Hi Hn; cbn [corner_loop]; [discriminate|].
    destruct (valid_pair_inv _ _ _ _ _ (CV i ltac:(lia))) as (nt & nc & -> & -> & R1 & R2).
    destruct AL as (_ & _ & _ & _ & _ & _ & _ & _ & _ & A). destruct (A PC) as (L & _).
    assert (R : 0 <= nt * children d + nc < c_nt c * children d) by (destruct d; cbn [children] in *; lia).
    destruct (zget_some (c_ttc c) (nt * children d + nc) ltac:(lia)) as (x & ->).
    destruct (negb (x =? ac)); [discriminate|].
    destruct ((nt =? t) && (nc =? k)); [destruct found; [discriminate|]|]; apply IH; lia.
  Qed.

  Lemma corner_in_bounds k : 0 <= k < children d -> valid_corner d c num_ctt t k <> None.
  Proof.
    intros Hk. unfold valid_corner. destruct (find_corner_ok k Hk) as (l & ->).
    destruct (ttc_read k Hk) as (ac & _ & -> & R). cbn [with_].
    apply andthen_ok; [discriminate|]. intros _. destruct (ac =? -1) eqn:E; [discriminate|].
    destruct (coff_read ac ltac:(lia)) as (b & e & -> & -> & B1 & B2). cbn [with_].
    apply andthen_ok; [discriminate|]. intros _.
    pose proof (corner_loop_ok k ac (Z.to_nat (e - b)) b false ltac:(lia) ltac:(lia)) as CL.
    destruct (corner_loop d c t k ac (Z.to_nat (e - b)) b false) as [[|]|]; congruence.
  Qed.
End Corners.

Lemma conn_in_bounds d c : allocated d c -> indices_ok (c_nc c) (c_ttc c) (c_coff c) ->
  (d = D3 -> indices_ok (c_ne c) (c_tte c) (c_eoff c)) -> conn_is_valid d c <> None.
Proof.
  intros AL CIDX EIDX. pose proof AL as (P1 & P2 & P3 & P4 & ATV & ATT & ATF & AE & ACO & AC). unfold conn_is_valid.
  apply with_ok.
  { destruct (is3 d) eqn:D; [|discriminate]. assert (D' : d = D3) by (destruct d; [discriminate|auto]).
    destruct (AE D') as (L & _). apply zget_ok. lia. }
  intros num_ett NE. apply with_ok; [apply zget_ok; lia|]. intros num_ctt NC.
  assert (NE' : d = D3 -> zget (c_eoff c) (c_ne c) = Some num_ett) by (intros ->; exact NE).
  apply andthen_ok; [discriminate|]. intros _. apply andthen_ok; [discriminate|]. intros _.
  apply andthen_ok.
  { destruct (is3 d) eqn:D; [|discriminate]. assert (D' : d = D3) by (destruct d; [discriminate|auto]).
    apply each_ok. intros j Hj. unfold valid_pair.
    destruct (Z.eq_dec (c_ne c) 0) as [E0|E0].
    - destruct (EIDX D') as (Z0 & _). rewrite E0 in *. rewrite (Z0 eq_refl) in NE. injection NE as <-. cbn in Hj. lia.
    - destruct (AE D') as (_ & B). destruct (B ltac:(lia)) as (_ & L & E). rewrite NE in E. injection E as E.
      apply with_ok; [apply zget_ok; lia|]. intros x _. apply andthen_ok; [discriminate|]. intros _.
      apply with_ok; [apply zget_ok; lia|]. discriminate. }
  intros EV. assert (EV' : d = D3 -> forall i, 0 <= i < num_ett -> valid_pair (c_ett c) (c_ete c) (c_nt c) 24 i = Some true).
  { intros ->. cbn [is3] in EV. intros i Hi. apply (proj1 (each_true _ _ _) EV). lia. }
  apply andthen_ok.
  { apply each_ok. intros j Hj. unfold valid_pair.
    destruct (Z.eq_dec (c_nc c) 0) as [E0|E0].
    - destruct CIDX as (Z0 & _). rewrite E0 in *. rewrite (Z0 eq_refl) in NC. injection NC as <-. cbn in Hj. lia.
    - destruct (AC ltac:(lia)) as (_ & L & E). rewrite NC in E. injection E as E.
      apply with_ok; [apply zget_ok; lia|]. intros x _. apply andthen_ok; [discriminate|]. intros _.
      apply with_ok; [apply zget_ok; lia|]. discriminate. }
  intros CV. assert (CV' : forall i, 0 <= i < num_ctt -> valid_pair (c_ctt c) (c_ctc c) (c_nt c) (children d) i = Some true).
  { intros i Hi. apply (proj1 (each_true _ _ _) CV). lia. }
  apply andthen_ok.
  { destruct (0 <? c_nv c) eqn:V; [|discriminate]. destruct ATV as (l & E & L); [lia|]. rewrite E. cbn [oget].
    apply each_ok. intros j Hj. apply with_ok; [apply zget_ok; lia|]. discriminate. }
  intros _. apply andthen_ok; [discriminate|]. intros _.
  apply each_ok. intros t Ht. unfold valid_tree.
  apply andthen_ok; [apply each_ok; intros f Hf; apply face_in_bounds; auto; lia|]. intros FA.
  assert (FA' : forall f, 0 <= f < faces d -> valid_face d c t f = Some true)
    by (intros f Hf; apply (proj1 (each_true _ _ _) FA); lia).
  assert (OF : forall n off, 0 <= n -> zlen off = n + 1 -> each (valid_offset off) 0 (Z.to_nat n) <> None).
  { intros n off Hn L. apply each_ok. intros j Hj. unfold valid_offset. apply with_ok; [apply zget_ok; lia|]. intros e _.
    apply with_ok; [apply zget_ok; lia|]. discriminate. }
  apply andthen_ok.
  { destruct (is3 d) eqn:D; [|discriminate]. assert (D' : d = D3) by (destruct d; [discriminate|auto]).
    destruct (AE D') as (L & _). apply andthen_ok; [apply OF; auto|]. intros EO.
    destruct (0 <? c_ne c) eqn:PE; [|discriminate]. apply each_ok. intros e He.
    assert (EO' : forall a, 0 <= a < c_ne c -> valid_offset (c_eoff c) a = Some true)
      by (intros a Ha; apply (proj1 (each_true _ _ _) EO); lia).
    subst d. apply (edge_in_bounds c AL num_ett NE (EV' eq_refl) t ltac:(lia) FA' EO' ltac:(lia) (EIDX eq_refl)). lia. }
  intros EA. apply andthen_ok; [apply OF; auto|]. intros CO.
  assert (CO' : forall a, 0 <= a < c_nc c -> valid_offset (c_coff c) a = Some true)
    by (intros a Ha; apply (proj1 (each_true _ _ _) CO); lia).
  destruct (0 <? c_nc c) eqn:PC; [|discriminate]. apply each_ok. intros k Hk.
  assert (EO' : d = D3 -> forall a, 0 <= a < c_ne c -> valid_offset (c_eoff c) a = Some true).
  { intros ->. cbn [is3] in EA. apply andthen_true in EA as (EO & _). intros a Ha. apply (proj1 (each_true _ _ _) EO). lia. }
  assert (EA' : d = D3 -> 0 < c_ne c -> forall e, 0 <= e < 12 -> valid_edge c num_ett t e = Some true).
  { intros -> PE. cbn [is3] in EA. apply andthen_true in EA as (_ & EA). destruct (0 <? c_ne c) eqn:PE'; [|lia].
    intros e He. apply (proj1 (each_true _ _ _) EA). lia. }
  apply (corner_in_bounds d c AL num_ett num_ctt NE' NC EV' CV' t ltac:(lia) FA' EA' EO' CO' ltac:(lia) EIDX CIDX).
  destruct d; cbn [children] in *; lia.
Qed.
