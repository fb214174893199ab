(** * The neighbors across a face in the tree that they belong to *)

From Coq Require Import ZArith List Bool Lia ZifyBool.
From Verif Require Import Quad Spec Morton ZBits Interval QuadLemmas CompareLemmas DescLemmas SearchLocal Neighbor RangeBoundLemmas PropertiesRangeBound PropertiesNeighbor Transform PropertiesTransform
  Conn ConnLemmas Partition PartLemmas Comm OwnerLemmas Ghost GhostSpec GhostGeom GhostOut GhostState GhostTest GhostSteps GhostQuad GhostSym GhostTouch GhostFind Balanced BalancedGeom.
Import ListNotations.
Open Scope Z_scope.

Lemma nb_face_out d q f : wf d q -> 0 <= f < faces d ->
  out d (nb d q (face_obj f)) = (None, None, None) \/ out d (nb d q (face_obj f)) = face_obj f.
Proof.
  intros Wq Hf. destruct (faces6 d f Hf) as (F6 & _). assert (HV := obj_D2_face d f Hf).
  assert (AX : forall i, axis d i -> og (face_obj f) i = if i =? f / 2 then Some (Z.odd f) else None).
  { intros i A. apply og_face; [exact F6|]. unfold axis in A. destruct d; cbn [nd] in A; lia. }
  destruct (og (out d (nb d q (face_obj f))) (f / 2)) as [x|] eqn:OF; [right|left].
  - apply (obj_ext d); [|intros E2; split; [apply out_D2; exact E2|apply HV; exact E2]]. intros i A. destruct (nb_out d q (face_obj f) i Wq A) as (N1 & _ & N2).
    destruct (Z.eq_dec i (f / 2)) as [->|NI]; [destruct N1; congruence|]. rewrite N2; rewrite AX by exact A; replace (i =? f / 2) with false by lia; reflexivity.
  - apply (obj_ext d); [|intros ->; split; reflexivity]. intros i A. destruct (nb_out d q (face_obj f) i Wq A) as (N1 & _ & N2).
    assert (NN : og (None, None, None) i = None) by (unfold og; destruct (i =? 0), (i =? 1); reflexivity). rewrite NN.
    destruct (Z.eq_dec i (f / 2)) as [->|NI]; [exact OF|]. apply N2. rewrite AX by exact A. replace (i =? f / 2) with false by lia. reflexivity.
Qed.

Section Image.
  Variables (d : dim) (c : conn) (t f : Z) (q : quad).
  Hypothesis V : conn_is_valid d c = Some true.
  Hypothesis Ht : 0 <= t < c_nt c.
  Hypothesis Wq : wf d q.
  Hypothesis Hf : 0 <= f < faces d.
  Let N := nb d q (face_obj f).

  (** on the same side of the face of the tree as the neighbor of q *)
  Definition here (n : quad) : Prop :=
    (out d N = (None, None, None) /\ wf d n) \/ (out d N = face_obj f /\ beyond d f n).

  Lemma q_ext : ext d q. Proof. apply wf_ext in Wq. apply Wq. Qed.
  Lemma N_ext : ext d N. Proof. apply ext_nb. exact q_ext. Qed.
  Lemma here_N : here N.
  Proof.
    destruct (nb_face_out d q f Wq Hf) as [O|O]; [left|right]; (split; [exact O|]); [apply (out_none d N N_ext); exact O|].
    apply out_beyond; auto; [exact N_ext|]. intros i A. apply (nb_out d q (face_obj f) i Wq A).
  Qed.
  Lemma here_sub n : ext d n -> inbox d N n -> here n.
  Proof.
    intros En IB. destruct here_N as [(O & W)|(O & B)]; [left|right]; (split; [exact O|]); [apply (inbox_wf d N); auto|apply (inbox_beyond d f N); auto].
  Qed.
  Lemma here_par : 0 < ql q -> inbox d (nb d (parent d q) (face_obj f)) N -> here (nb d (parent d q) (face_obj f)).
  Proof.
    intros L0 IB. destruct (parent_wf d q Wq L0) as (Wp & _). pose proof (proj1 (proj1 (wf_ext d _) Wp)) as Ep. pose proof (ext_nb d _ (face_obj f) Ep) as En.
    pose proof (inbox_out d _ N En N_ext IB) as OO.
    destruct here_N as [(O & W)|(O & B)]; [left|right]; (split; [exact O|]); rewrite O in OO; [apply (out_none d _ En); exact OO|].
    apply out_beyond; auto. intros i A. apply (nb_out d (parent d q) (face_obj f) i Wp A).
  Qed.
  Lemma here_ext n : here n -> ext d n.
  Proof. intros [(_ & W)|(_ & B)]; [apply wf_ext in W; apply W|apply B]. Qed.
  Lemma here_range n i : here n -> axis d i -> - 2 ^ 30 <= vget (cv n) i < 2 ^ 31.
  Proof.
    intros [(_ & W)|(_ & B)] A; [apply wf_comp in W; destruct W as (_ & W); specialize (W i A); lia|].
    apply beyond_comp in B. destruct B as (_ & B). specialize (B i A). unfold shift_lo in B. destruct (i =? f / 2), (f mod 2 =? 0); lia.
  Qed.

  (** the quadrants of this side in tree nt *)
  Definition image (nt : Z) (phi : quad -> quad) : Prop := 0 <= nt < c_nt c /\ forall n, here n ->
    wf d (phi n) /\ ql (phi n) = ql n /\ (forall nt' n', seen_as d c t n nt' n' <-> nt' = nt /\ n' = phi n) /\
    (forall m, here m -> (inbox d n m <-> inbox d (phi n) (phi m))) /\
    (forall gfp P rank, quadrant_find_owner d c gfp P rank t f n = find_owner d gfp P nt (phi n) rank).

  (** the value of xyz in p4est_quadrant_on_face_boundary *)
  Lemma bound_out : (match f / 2 with 0 => qx q | 1 => qy q | _ => qz q end =? (if nz (Z.land f 1) then LAST_OFFSET (ql q) else 0)) = true <-> out d N = face_obj f.
  Proof.
    destruct (faces6 d f Hf) as (F6 & F4). assert (A2 : axis d (f / 2)).
    { unfold axis. split; [apply Z.div_pos; lia|]. apply Z.div_lt_upper_bound; [lia|]. destruct d; cbn [nd faces] in *; lia. }
    assert (K : out d N = face_obj f <-> out_axis (vget (cv N) (f / 2)) <> None).
    { rewrite <- (og_out d N (f / 2) A2). assert (OF : og (face_obj f) (f / 2) = Some (Z.odd f)). { rewrite og_face; [rewrite Z.eqb_refl; reflexivity|exact F6|]. split; [apply Z.div_pos; lia|apply Z.div_lt_upper_bound; lia]. }
      split; [intros ->; rewrite OF; discriminate|]. intros H. destruct (nb_face_out d q f Wq Hf) as [O|O]; [|exact O]. exfalso. apply H. fold N in O. rewrite O. unfold og. destruct (f / 2 =? 0), (f / 2 =? 1); reflexivity. }
    rewrite K. unfold N. rewrite (nb_axis d q (face_obj f) (f / 2) A2).
    assert (OF : og (face_obj f) (f / 2) = Some (Z.odd f)). { rewrite og_face; [rewrite Z.eqb_refl; reflexivity|exact F6|]. split; [apply Z.div_pos; lia|apply Z.div_lt_upper_bound; lia]. }
    rewrite OF. pose proof (proj1 (wf_comp d q) Wq) as (Eq & R). specialize (R (f / 2) A2). apply ext_comp in Eq. destruct Eq as (Lq & M & _). specialize (M _ A2).
    pose proof (side_pos (ql q) ltac:(lia)) as SP. pose proof (side_mul (ql q) ltac:(lia)) as SM.
    assert (UP : vget (cv q) (f / 2) + side (ql q) <= 2 ^ 30) by (apply (mul_up (ql q) _ (2 ^ 30)); [lia|exact M|auto|apply R]).
    assert (LO : vget (cv q) (f / 2) = 0 \/ side (ql q) <= vget (cv q) (f / 2)). { destruct M as (X & EX). rewrite EX in *. destruct (Z.eq_dec X 0) as [->|]; [left; lia|right]. assert (1 <= X) by nia. nia. }
    assert (EV : match f / 2 with 0 => qx q | 1 => qy q | _ => qz q end = vget (cv q) (f / 2)).
    { six f F6; reflexivity. }
    rewrite EV. assert (LA : LAST_OFFSET (ql q) = 2 ^ 30 - side (ql q)) by (unfold LAST_OFFSET; rewrite QLEN_side by lia; reflexivity). rewrite LA.
    assert (OD : nz (Z.land f 1) = Z.odd f) by (six f F6; reflexivity). rewrite OD. set (a := vget (cv q) (f / 2)) in *. clearbody a. unfold out_axis.
    destruct (Z.odd f); cbn [sg].
    - destruct (a + 1 * side (ql q) <? 0) eqn:E1; [lia|]. destruct (2 ^ 30 <=? a + 1 * side (ql q)) eqn:E2; split; intros H; try lia; try congruence.
    - destruct (a + -1 * side (ql q) <? 0) eqn:E1; [split; intros; [discriminate|lia]|]. destruct (2 ^ 30 <=? a + -1 * side (ql q)) eqn:E2; split; intros H; try lia; congruence.
  Qed.

  Lemma side_cases :
    (on_face_boundary d c t f q = Some true /\ forall n nt n', here n -> ~ seen_as d c t n nt n') \/
    (on_face_boundary d c t f q = Some false /\ exists nt phi, image nt phi).
  Proof.
    pose proof bound_out as BO. destruct (conn_valid_inv _ _ V) as (ne & nc & _ & _ & _ & _ & TV).
    destruct (valid_tree_inv _ _ _ _ _ (TV t Ht)) as (FV & _). destruct (valid_face_true _ _ _ _ (FV f Hf)) as (nt & code & E1 & E2 & Rn & Rc & _).
    rewrite (Z.mul_comm t) in E1, E2. assert (Fp : 0 < faces d) by (destruct d; cbn; lia).
    unfold on_face_boundary. rewrite E1, E2.
    destruct (conn_faces d c t V Ht f Hf) as [FN|(nt' & nf & o & FF & Rt & Rf & Ro & EC)].
    - assert (K : nt = t /\ code = f).
      { destruct (Z.eq_dec nt t) as [En|Nn]; [destruct (Z.eq_dec code f) as [Ec|Nc]; [auto|]|]; exfalso;
        (destruct (face_back d c t f nt code V Ht Hf E1 E2 ltac:(lia)) as (_ & _ & _ & _ & _ & X); unfold find_face_transform in FN; rewrite E1, E2 in FN; rewrite Z.rem_mod_nonneg in FN by lia;
         destruct (nt =? t) eqn:A, (code mod faces d =? f) eqn:B; cbn [andb] in FN; try discriminate FN; lia). }
      destruct K as (-> & ->). rewrite !Z.eqb_refl. cbn [negb orb].
      destruct (nb_face_out d q f Wq Hf) as [O|O]; fold N in O.
      + right. split; [f_equal; apply not_true_iff_false; intros H; apply BO in H; rewrite O in H; apply (f_equal dirs) in H; rewrite dirs_face in H; discriminate|].
        exists t, (fun n => n). split; [exact Ht|]. intros n [(_ & Wn)|(O' & _)]; [|rewrite O in O'; apply (f_equal dirs) in O'; rewrite dirs_face in O'; discriminate].
        pose proof (proj1 (proj1 (wf_ext d n) Wn)) as En. pose proof (proj2 (out_none d n En) Wn) as On.
        split; [exact Wn|]. split; [reflexivity|]. split; [intros nt' n'; apply seen_in; exact On|]. split; [tauto|].
        intros gfp P rank. unfold quadrant_find_owner. rewrite (inside_iff d n En), On. reflexivity.
      + left. split; [f_equal; apply BO; exact O|]. intros n nt' n' [(O' & _)|(_ & B)] SN; [rewrite O in O'; apply (f_equal dirs) in O'; rewrite dirs_face in O'; discriminate|].
        apply (seen_face d c t nt' n n' f Hf (GhostTouch.beyond_out d f n Hf B)) in SN. destruct SN as (ft & E & _). congruence.
    - right. pose proof FF as FF'. unfold find_face_transform in FF'. rewrite E1, E2 in FF'. rewrite Z.rem_mod_nonneg in FF' by lia.
      assert (ENT : (nt =? t) && (code mod faces d =? f) = false /\ nt' = nt).
      { destruct ((nt =? t) && (code mod faces d =? f)) eqn:A; [discriminate FF'|]. split; [reflexivity|congruence]. }
      destruct ENT as (NB & ->).
      assert (NC : (nt =? t) && (code =? f) = false).
      { destruct ((nt =? t) && (code =? f)) eqn:A; [|reflexivity]. exfalso. assert (code = f) by lia. subst code. rewrite Z.mod_small in NB by lia. congruence. }
      split; [rewrite <- negb_andb, NC; reflexivity|].
      destruct (nb_face_out d q f Wq Hf) as [O|O]; fold N in O.
      + exists t, (fun n => n). split; [exact Ht|]. intros n [(_ & Wn)|(O' & _)]; [|rewrite O in O'; apply (f_equal dirs) in O'; rewrite dirs_face in O'; discriminate].
        pose proof (proj1 (proj1 (wf_ext d n) Wn)) as En. pose proof (proj2 (out_none d n En) Wn) as On.
        split; [exact Wn|]. split; [reflexivity|]. split; [intros nt' n'; apply seen_in; exact On|]. split; [tauto|].
        intros gfp P rank. unfold quadrant_find_owner. rewrite (inside_iff d n En), On. reflexivity.
      + exists nt, (fun n => transform_face d n (expand_face_transform d f nf o)). split; [exact Rt|].
        intros n [(O' & _)|(_ & B)]; [rewrite O in O'; apply (f_equal dirs) in O'; rewrite dirs_face in O'; discriminate|].
        pose proof B as (En & _). pose proof (GhostTouch.beyond_out d f n Hf B) as On.
        split; [apply tf_wf; auto|]. split; [apply (tf_level d f nf o)|]. split.
        { intros nt' n'. rewrite (seen_face d c t nt' n n' f Hf On). split.
          - intros (ft & E & ->). rewrite FF in E. injection E as <- <-. auto.
          - intros (-> & ->). exists (expand_face_transform d f nf o). auto. }
        split.
        { intros m [(O' & _)|(_ & Bm)]; [rewrite O in O'; apply (f_equal dirs) in O'; rewrite dirs_face in O'; discriminate|]. apply (tf_inbox d f nf o Hf Rf Ro n m B Bm). }
        intros gfp P rank. unfold quadrant_find_owner. rewrite (inside_iff d n En), On.
        replace (oeqb (face_obj f) (None, None, None)) with false.
        2:{ symmetry. apply not_true_iff_false. intros H. apply oeqb_eq in H. apply (f_equal dirs) in H. rewrite dirs_face in H. discriminate. }
        rewrite E1, E2, NC, FF. reflexivity.
  Qed.
End Image.
