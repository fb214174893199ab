(** * Geometry of the neighbors of a quadrant, for the ghost layer *)

From Coq Require Import ZArith List Bool Lia ZifyBool.
From Verif Require Import Quad Spec Morton ZBits Interval QuadLemmas CompareLemmas DescLemmas SearchLocal Neighbor RangeBound RangeBoundLemmas PropertiesNeighbor Transform PropertiesTransform
  BalanceBasics BalanceGeom Conn Partition Comm OwnerLemmas Ghost GhostSpec.
Import ListNotations.
Open Scope Z_scope.

Definition og (o : obj) (i : Z) : option bool := let '(a, b, e) := o in if i =? 0 then a else if i =? 1 then b else e.
Definition oflip (o : option bool) : option bool := match o with None => None | Some b => Some (negb b) end.
Definition vflip (v : obj) : obj := let '(a, b, e) := v in (oflip a, oflip b, oflip e).
Definition sg (o : option bool) : Z := match o with None => 0 | Some false => -1 | Some true => 1 end.

(** the neighbor of the same size *)
Definition nb (d : dim) (q : quad) (v : obj) : quad :=
  let '(a, b, e) := v in
  mkq (qx q + sg a * side (ql q)) (qy q + sg b * side (ql q)) (match d with D2 => qz q | D3 => qz q + sg e * side (ql q) end) (ql q).

Definition inbox (d : dim) (n s : quad) : Prop :=
  forall i, axis d i -> vget (cv n) i <= vget (cv s) i /\ vget (cv s) i + side (ql s) <= vget (cv n) i + side (ql n).

Lemma touches_comp d b s o : touches d b s o <-> forall i, axis d i -> touch_axis (og o i) (vget (cv b) i) (ql b) (vget (cv s) i) (ql s).
Proof.
  rewrite (all_axes d (fun i => touch_axis (og o i) (vget (cv b) i) (ql b) (vget (cv s) i) (ql s))).
  destruct o as ((x, y), z). reflexivity.
Qed.
Lemma inbox_axes d n s : inbox d n s <-> (qx n <= qx s /\ qx s + side (ql s) <= qx n + side (ql n)) /\ (qy n <= qy s /\ qy s + side (ql s) <= qy n + side (ql n)) /\
  match d with D2 => True | D3 => qz n <= qz s /\ qz s + side (ql s) <= qz n + side (ql n) end.
Proof. unfold inbox. rewrite (all_axes d (fun i => vget (cv n) i <= vget (cv s) i /\ vget (cv s) i + side (ql s) <= vget (cv n) i + side (ql n))). reflexivity. Qed.

Lemma side29 : side 29 = 2. Proof. reflexivity. Qed.

Lemma side_even l : 0 <= l <= 29 -> exists h, side l = 2 * h /\ 1 <= h.
Proof.
  intros L. exists (2 ^ (29 - l)). unfold side. replace (30 - l) with (Z.succ (29 - l)) by lia. rewrite Z.pow_succ_r by lia.
  split; [reflexivity|]. pose proof (pow2_pos (29 - l) ltac:(lia)). lia.
Qed.

Lemma ext_even d q : ext d q -> exists X Y Z0, qx q = 2 * X /\ qy q = 2 * Y /\ qz q = 2 * Z0.
Proof.
  intros (L & (X & EX) & (Y & EY) & HZ). destruct (side_even (ql q) L) as (h & Eh & _). rewrite Eh in *.
  assert (exists Z0, qz q = 2 * Z0) as (Z0 & EZ).
  { destruct d; [exists 0; lia|]. destruct HZ as (Z0 & ->). exists (Z0 * h). lia. }
  exists (X * h), (Y * h), Z0. lia.
Qed.

(** the smallest quadrants next to q in direction v *)
Lemma beside_iff d q v s : ext d q -> (d = D2 -> og v 2 = None) ->
  (beside d q v s <-> ext d s /\ ql s = 29 /\ inbox d (nb d q v) s /\ touches d (nb d q v) s (vflip v)).
Proof.
  intros Eq HV. pose proof Eq as (L & _). destruct (side_even (ql q) L) as (h & Eh & Hh).
  rewrite inbox_axes. unfold beside. destruct v as ((a, b), e). cbn [nb vflip touches qx qy qz ql og] in *.
  assert (ONE : forall o x y, (at_axis o x (side (ql q)) y <->
    (x + sg o * side (ql q) <= y /\ y + 2 <= x + sg o * side (ql q) + side (ql q)) /\ touch_axis (oflip o) (x + sg o * side (ql q)) (ql q) y 29)).
  { intros o x y. rewrite Eh. destruct o as [[]|]; cbn [at_axis sg oflip negb touch_axis]; rewrite ?side29, ?Eh; lia. }
  split.
  - intros (A & B & C & D0 & E0). split; [exact A|]. split; [exact B|]. rewrite B, side29. rewrite ONE in C, D0.
    destruct d; [tauto|]. rewrite ONE in E0. tauto.
  - intros (A & B & (C1 & D1 & E1) & C2 & F2 & E2). split; [exact A|]. split; [exact B|]. rewrite B, side29 in *. rewrite !ONE.
    destruct d; [specialize (HV eq_refl); cbn in HV; tauto|]. rewrite ONE. tauto.
Qed.

Lemma ext_nb d q v : ext d q -> ext d (nb d q v).
Proof.
  intros (L & (X & EX) & (Y & EY) & HZ). destruct v as ((a, b), e). unfold ext. cbn [nb qx qy qz ql].
  split; [exact L|]. split; [exists (X + sg a); lia|]. split; [exists (Y + sg b); lia|].
  destruct d; [exact HZ|]. destruct HZ as (Z0 & EZ). exists (Z0 + sg e). lia.
Qed.

Ltac one_nb h :=
  match goal with |- context [nb _ _ ?x] => let v := eval vm_compute in x in change x with v end;
  cbn [nb sg]; fold h; clearbody h;
  repeat match goal with |- context [?a / ?b] => let v := eval vm_compute in (a / b) in change (a / b) with v end;
  cbn -[Z.mul Z.add Z.opp Z.sub]; f_equal; lia.

Lemma face_nb d q f : ext d q -> 0 <= f < faces d -> face_neighbor d q f = nb d q (face_obj f).
Proof.
  intros (L & _) Hf. unfold face_neighbor. rewrite QLEN_side by lia. set (h := side (ql q)).
  destruct d; cbn [faces is3] in *.
  - assert (f = 0 \/ f = 1 \/ f = 2 \/ f = 3) as C by lia. destruct C as [->|[->|[->| ->]]]; one_nb h.
  - assert (f = 0 \/ f = 1 \/ f = 2 \/ f = 3 \/ f = 4 \/ f = 5) as C by lia. destruct C as [->|[->|[->|[->|[->| ->]]]]]; one_nb h.
Qed.

Lemma edge_nb q e : ext D3 q -> 0 <= e < 12 -> edge_neighbor q e = nb D3 q (edge_obj e).
Proof.
  intros (L & _) He. unfold edge_neighbor. rewrite QLEN_side by lia. set (h := side (ql q)).
  assert (e = 0 \/ e = 1 \/ e = 2 \/ e = 3 \/ e = 4 \/ e = 5 \/ e = 6 \/ e = 7 \/ e = 8 \/ e = 9 \/ e = 10 \/ e = 11) as C by lia.
  destruct C as [->|[->|[->|[->|[->|[->|[->|[->|[->|[->|[->| ->]]]]]]]]]]]; one_nb h.
Qed.

Lemma corner_nb d q k : ext d q -> 0 <= k < children d -> corner_neighbor d q k = nb d q (corner_obj d k).
Proof.
  intros (L & _) Hk. unfold corner_neighbor. rewrite QLEN_side by lia. set (h := side (ql q)).
  destruct d; cbn [children is3] in *.
  - assert (k = 0 \/ k = 1 \/ k = 2 \/ k = 3) as C by lia. destruct C as [->|[->|[->| ->]]]; one_nb h.
  - assert (k = 0 \/ k = 1 \/ k = 2 \/ k = 3 \/ k = 4 \/ k = 5 \/ k = 6 \/ k = 7) as C by lia.
    destruct C as [->|[->|[->|[->|[->|[->|[->| ->]]]]]]]; one_nb h.
Qed.

(** containment of a smallest quadrant *)
Lemma inbox_within d n s : wf d n -> wf d s -> ql s = 29 -> (inbox d n s <-> within d n s).
Proof.
  intros Wn Ws Ls. pose proof (wf_level d n Wn) as Ln. destruct (side_even (ql n) Ln) as (h & Eh & Hh).
  pose proof Wn as Wn'. pose proof Ws as Ws'. apply wf_ext in Wn', Ws'. destruct Wn' as (En & _). destruct Ws' as (Es & _).
  destruct (ext_even d n En) as (X & Y & Z0 & EX & EY & EZ). destruct (ext_even d s Es) as (X' & Y' & Z' & EX' & EY' & EZ').
  rewrite inbox_axes, Ls, side29. unfold within.
  rewrite (BalanceGeom.inn_corner d n s Wn Ws). unfold inq. rewrite Ls, Eh. rewrite EX, EX', EY, EY'.
  pose proof (BalanceGeom.wf_z d s Ws) as ZS. destruct d; [specialize (ZS eq_refl); lia|]. rewrite EZ, EZ'. lia.
Qed.

(** a smallest quadrant in the box of a quadrant in the tree is in the tree *)
Lemma inbox_wf d n s : wf d n -> ext d s -> inbox d n s -> wf d s.
Proof.
  intros Wn Es I. apply wf_comp. split; [exact Es|]. apply wf_comp in Wn. destruct Wn as (En & R).
  pose proof Es as (Ls & _). pose proof (side_pos (ql s) ltac:(lia)) as SP.
  intros i A. specialize (I i A). specialize (R i A). pose proof (ext_comp d n) as EC. apply EC in En. destruct En as (L & Dv & _).
  pose proof (mul_up (ql n) (vget (cv n) i) (2 ^ 30) ltac:(lia) (Dv i A) ltac:(auto) ltac:(lia)). lia.
Qed.

Lemma inbox_beyond d f n s : beyond d f n -> ext d s -> inbox d n s -> beyond d f s.
Proof.
  intros Bn Es I. apply beyond_comp. split; [exact Es|]. apply beyond_comp in Bn. destruct Bn as (En & R).
  pose proof Es as (Ls & _). pose proof (side_pos (ql s) ltac:(lia)) as SP.
  intros i A. specialize (I i A). specialize (R i A). apply ext_comp in En. destruct En as (L & Dv & _).
  assert (M : shift_lo f i + 2 ^ 30 = - 2 ^ 30 \/ shift_lo f i + 2 ^ 30 = 2 ^ 30 \/ shift_lo f i + 2 ^ 30 = 0 \/ shift_lo f i + 2 ^ 30 = 2 ^ 31).
  { unfold shift_lo. destruct (i =? f / 2); [|lia]. destruct (f mod 2 =? 0); lia. }
  pose proof (mul_up (ql n) (vget (cv n) i) _ ltac:(lia) (Dv i A) M ltac:(lia)). lia.
Qed.

(** ** Across a face *)

(** the face, edge or corner after a face transformation *)
Definition reversing (k : Z) : bool := (k =? 1) || (k =? 2) || (k =? 5).
Definition omap (d : dim) (ft : ftrans) (o : obj) : obj :=
  let g j := let (i, k) := comp d ft j in if reversing k then oflip (og o i) else og o i in
  (g 0, g 1, match d with D2 => None | D3 => g 2 end).

Lemma phi_box k s h x y : 0 <= k <= 5 -> (y <= x /\ x + s <= y + h <-> phi k h y <= phi k s x /\ phi k s x + s <= phi k h y + h).
Proof.
  intros K. assert (k = 0 \/ k = 1 \/ k = 2 \/ k = 3 \/ k = 4 \/ k = 5) as H by lia.
  destruct H as [->|[->|[->|[->|[->| ->]]]]]; unfold phi; zconst; cbv iota; lia.
Qed.
Lemma phi_touch k o b lb s ls : 0 <= k <= 5 ->
  (touch_axis o b lb s ls <-> touch_axis (if reversing k then oflip o else o) (phi k (side lb) b) lb (phi k (side ls) s) ls).
Proof.
  intros K. assert (k = 0 \/ k = 1 \/ k = 2 \/ k = 3 \/ k = 4 \/ k = 5) as H by lia.
  destruct H as [->|[->|[->|[->|[->| ->]]]]]; unfold phi, reversing; zconst; cbv iota; cbn [orb]; destruct o as [[]|]; cbn [oflip negb touch_axis]; lia.
Qed.

Lemma og_omap d ft o j : axis d j -> og (omap d ft o) j = let (i, k) := comp d ft j in if reversing k then oflip (og o i) else og o i.
Proof.
  unfold axis. intros A. unfold omap. destruct (Z.eq_dec j 0) as [->|]; [reflexivity|]. destruct (Z.eq_dec j 1) as [->|]; [reflexivity|].
  destruct d; cbn [nd] in A; [lia|]. assert (j = 2) by lia. subst. reflexivity.
Qed.

Section Face.
  Variables (d : dim) (f nf o : Z).
  Hypothesis (Hf : 0 <= f < faces d) (Hn : 0 <= nf < faces d) (Ho : 0 <= o < half d).
  Let ft := expand_face_transform d f nf o.
  Let ft' := expand_face_transform d nf f o.

  Lemma tf_inbox n s : beyond d f n -> beyond d f s -> (inbox d n s <-> inbox d (transform_face d n ft) (transform_face d s ft)).
  Proof.
    intros Bn Bs. unfold inbox. rewrite !(tf_level d f nf o). split.
    - intros H j A. unfold ft. rewrite !(tf_comp d f nf o Hf Hn Ho) by auto.
      pose proof (comp_spec d f nf o Hf Hn Ho j A) as C. destruct (comp d _ j) as (i, k). cbn [fst snd].
      apply phi_box; [apply C|]. apply H. apply C.
    - intros H i A. pose proof (comp_spec d nf f o Hn Hf Ho i A) as C. destruct (comp d _ i) as (j, k).
      destruct C as (Aj & K & _ & _ & _ & Ci). specialize (H j Aj). unfold ft in H. rewrite !(tf_comp d f nf o Hf Hn Ho) in H by auto.
      rewrite Ci in H. cbn [fst snd] in H. apply phi_box in H; [exact H|].
      unfold kinv. destruct (k =? 3) eqn:?; [lia|]. destruct (k =? 4) eqn:?; lia.
  Qed.

  Lemma tf_touches n s v : beyond d f n -> beyond d f s -> (touches d n s v <-> touches d (transform_face d n ft) (transform_face d s ft) (omap d ft v)).
  Proof.
    intros Bn Bs. rewrite !touches_comp. rewrite !(tf_level d f nf o). split.
    - intros H j A. rewrite og_omap by exact A. unfold ft. rewrite !(tf_comp d f nf o Hf Hn Ho) by auto.
      pose proof (comp_spec d f nf o Hf Hn Ho j A) as C. destruct (comp d _ j) as (i, k). cbn [fst snd].
      apply phi_touch; [apply C|]. apply H. apply C.
    - intros H i A. pose proof (comp_spec d nf f o Hn Hf Ho i A) as C. destruct (comp d _ i) as (j, k).
      destruct C as (Aj & K & _ & _ & _ & Ci). specialize (H j Aj). rewrite og_omap in H by exact Aj. unfold ft in H.
      rewrite !(tf_comp d f nf o Hf Hn Ho) in H by auto. rewrite Ci in H. cbn [fst snd] in H. apply phi_touch in H; [exact H|].
      unfold kinv. destruct (k =? 3) eqn:?; [lia|]. destruct (k =? 4) eqn:?; lia.
  Qed.

  (** the smallest quadrants of the neighbor tree at the object *)
  Lemma tf_cells n v s' : beyond d f n -> wf d s' -> ql s' = 29 ->
    (inbox d (transform_face d n ft) s' /\ touches d (transform_face d n ft) s' (omap d ft v) <->
     exists s, ext d s /\ ql s = 29 /\ inbox d n s /\ touches d n s v /\ s' = transform_face d s ft).
  Proof.
    intros Bn Ws Ls. split.
    - intros (I & T). exists (transform_face d s' ft').
      assert (BS : beyond d f (transform_face d s' ft')) by (apply (tf_beyond d nf f o); auto).
      assert (E : transform_face d (transform_face d s' ft') ft = s') by (apply (tf_inv d nf f o); auto).
      split; [apply BS|]. split; [exact Ls|].
      split; [apply tf_inbox; auto; rewrite E; exact I|]. split; [apply tf_touches; auto; rewrite E; exact T|]. symmetry. exact E.
    - intros (s & Es & L & I & T & ->). pose proof (inbox_beyond d f n s Bn Es I) as Bs.
      split; [apply (proj1 (tf_inbox n s Bn Bs) I)|apply (proj1 (tf_touches n s v Bn Bs) T)].
  Qed.
End Face.

(** the near face is carried to the face of the neighbor tree *)
Lemma face_omap d f nf o : 0 <= f < faces d -> 0 <= nf < faces d -> 0 <= o < half d ->
  omap d (expand_face_transform d f nf o) (vflip (face_obj f)) = face_obj nf.
Proof.
  intros Hf Hn Ho.
  assert (A : zall (faces d) (fun f => zall (faces d) (fun nf => zall (half d) (fun o =>
    let '(a, b, e) := omap d (expand_face_transform d f nf o) (vflip (face_obj f)) in let '(a', b', e') := face_obj nf in
    let eqo (x y : option bool) := match x, y with None, None => true | Some x, Some y => Bool.eqb x y | _, _ => false end in
    eqo a a' && eqo b b' && eqo e e'))) = true) by (destruct d; vm_compute; reflexivity).
  pose proof (zall_spec _ _ f A Hf) as A1. cbv beta in A1. pose proof (zall_spec _ _ nf A1 Hn) as A2. cbv beta in A2.
  pose proof (zall_spec _ _ o A2 Ho) as A3. clear A A1 A2. cbv beta in A3.
  destruct (omap d (expand_face_transform d f nf o) (vflip (face_obj f))) as ((a, b), e). destruct (face_obj nf) as ((a', b'), e').
  destruct a as [[]|], a' as [[]|], b as [[]|], b' as [[]|], e as [[]|], e' as [[]|]; cbn in A3; congruence.
Qed.

Definition edge_at_face (e f : Z) : bool := (edge_faces e 0 =? f) || (edge_faces e 1 =? f).
Lemma edge_omap e f nf o : 0 <= e < 12 -> 0 <= f < 6 -> 0 <= nf < 6 -> 0 <= o < 4 -> edge_at_face e f = true ->
  omap D3 (expand_face_transform D3 f nf o) (vflip (edge_obj e)) = edge_obj (edge_across e f (nf + 6 * o)) /\ 0 <= edge_across e f (nf + 6 * o) < 12.
Proof.
  intros He Hf Hn Ho EF.
  assert (A : zall 12 (fun e => zall 6 (fun f => zall 6 (fun nf => zall 4 (fun o => negb (edge_at_face e f) ||
    let '(a, b, c) := omap D3 (expand_face_transform D3 f nf o) (vflip (edge_obj e)) in let '(a', b', c') := edge_obj (edge_across e f (nf + 6 * o)) in
    let eqo (x y : option bool) := match x, y with None, None => true | Some x, Some y => Bool.eqb x y | _, _ => false end in
    eqo a a' && eqo b b' && eqo c c' && (0 <=? edge_across e f (nf + 6 * o)) && (edge_across e f (nf + 6 * o) <? 12))))) = true) by (vm_compute; reflexivity).
  pose proof (zall_spec _ _ e A He) as A1. cbv beta in A1. pose proof (zall_spec _ _ f A1 Hf) as A2. cbv beta in A2.
  pose proof (zall_spec _ _ nf A2 Hn) as A3. cbv beta in A3. pose proof (zall_spec _ _ o A3 Ho) as A4. clear A A1 A2 A3. cbv beta in A4.
  rewrite EF in A4. cbn [negb orb] in A4. set (x := edge_across e f (nf + 6 * o)) in *. clearbody x.
  destruct (omap D3 (expand_face_transform D3 f nf o) (vflip (edge_obj e))) as ((a, b), c). destruct (edge_obj x) as ((a', b'), c').
  destruct a as [[]|], a' as [[]|], b as [[]|], b' as [[]|], c as [[]|], c' as [[]|]; cbn [Bool.eqb andb] in A4; try discriminate A4; split; try reflexivity; lia.
Qed.
