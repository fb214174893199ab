(** * Property C72: p4est_connectivity_join_faces *)

From Coq Require Import ZArith List Bool Lia ZifyBool Permutation Relations.
From Verif Require Import Quad Spec Neighbor Transform Partition Conn ConnLemmas ConnBounds Permute PermuteArray ConnComplete ConnCompleteArray ConnCompleteGroups ConnCompleteValid ConnCompleteEdges ConnCompleteCorners PropertiesConn Join JoinArray JoinCorners JoinFaces.
Import ListNotations.
Open Scope Z_scope.

(** ** joining two classes of an equivalence relation *)
Section Classes.
  Variable I : Z * Z -> Prop.
  Definition eq_on (R : Z * Z -> Z * Z -> Prop) : Prop :=
    (forall u, I u -> R u u) /\ (forall u v, I u -> R u v -> I v /\ R v u) /\ (forall u v w, I u -> R u v -> R v w -> R u w).
  Lemma joined_eq R x y : I x -> I y -> eq_on R -> eq_on (joined R x y).
  Proof.
    intros Ix Iy (RF & SY & TR). unfold joined. split; [auto|]. split.
    - intros u v Iu [H|[(H & K)|(H & K)]].
      + destruct (SY u v Iu H). auto.
      + destruct (SY u x Iu H). destruct (SY y v Iy K). split; [auto|]. right. right. auto.
      + destruct (SY u y Iu H). destruct (SY x v Ix K). split; [auto|]. right. left. auto.
    - intros u v w Iu [H|[(H & K)|(H & K)]] [P|[(P & Q)|(P & Q)]].
      + left. eauto.
      + right. left. split; [eauto|auto].
      + right. right. split; [eauto|auto].
      + right. left. split; [auto|eauto].
      + left. assert (YX : R y x) by eauto. destruct (SY y x Iy YX) as (_ & XY). assert (R x w) by eauto. eauto.
      + left. eauto.
      + right. right. split; [auto|eauto].
      + left. eauto.
      + left. assert (XY : R x y) by eauto. destruct (SY x y Ix XY) as (_ & YX). assert (R y w) by eauto. eauto.
  Qed.
End Classes.

(** corner i of the left face touches corner i of the right face, or the other one *)
Definition touch (tl tr fl fr o : Z) (x y : Z * Z) : Prop :=
  exists i, 0 <= i < 2 /\ x = (tl, face_corners D2 fl i) /\ y = (tr, face_corners D2 fr (Z.lxor i o)).
(** the identification that the old one and the two faces generate *)
Definition generated (c : conn) (gs : list (list (Z * Z))) (tl tr fl fr o : Z) : Z * Z -> Z * Z -> Prop :=
  clos_refl_sym_trans _ (fun x y => corner_of D2 c x /\ (meet D2 c gs x y \/ touch tl tr fl fr o x y)).
Definition boundary (d : dim) (c : conn) (t f : Z) : Prop :=
  0 <= t < c_nt c /\ 0 <= f < faces d /\ zget (c_ttt c) (faces d * t + f) = Some t /\ zget (c_ttf c) (faces d * t + f) = Some f.

Lemma oputs1 S t k v l : 0 <= S * t + k < zlen l -> oputs S [(t, k)] v l = Some (put l (S * t + k) v).
Proof. intros H. cbn [oputs fst snd]. unfold oput. replace (in_range (S * t + k) 0 (zlen l)) with true by (symmetry; apply range_true; auto). reflexivity. Qed.

(** what p4est_connectivity_is_valid says about the rest *)
Lemma valid_part d c2 gs ttc off ts cs : allocated d c2 -> d = D2 ->
  (forall t f, 0 <= t < c_nt c2 -> 0 <= f < faces d -> valid_face d c2 t f = Some true) ->
  (forall x, In x (concat gs) -> 0 <= fst x < c_nt c2 /\ 0 <= snd x < children d) -> NoDup (concat gs) ->
  arranged (children d) (c_nt c2) snd gs ttc off ts cs ->
  negb ((c_nv c2 =? 0) && (negb (is_null (c_vertices c2)) || negb (is_null (c_ttv c2)))) = true ->
  negb ((0 <? c_nv c2) && (is_null (c_vertices c2) || is_null (c_ttv c2))) = true ->
  (if 0 <? c_nv c2 then each (fun i => with_ (oget (c_ttv c2) i) (fun v => Some (in_range v 0 (c_nv c2)))) 0 (Z.to_nat (c_nt c2 * children d)) else Some true) = Some true ->
  Bool.eqb (negb (is_null (c_tta c2))) (0 <? c_attr c2) = true ->
  conn_is_valid d (set_corners c2 (zlen gs) ttc off ts cs) = Some true.
Proof.
  intros AL D FV GR GN AR V1 V2 V3 V4. assert (EG : d = D3 -> edges_good c2 0) by congruence. set (r := set_corners c2 (zlen gs) ttc off ts cs).
  assert (CI : indices_ok (zlen gs) ttc off) by (apply (ar_indices _ _ _ _ _ _ _ _ AR); [destruct d; cbn; lia|apply (nt_pos d c2 AL)]).
  assert (AL3 : allocated d r) by (eapply allocated3; eauto).
  assert (NN : conn_is_valid d r <> None) by (apply conn_in_bounds; [exact AL3|exact CI|intros D'; congruence]).
  assert (NF : conn_is_valid d r <> Some false); [|destruct (conn_is_valid d r) as [[|]|]; congruence].
  unfold r, conn_is_valid. apply nf_with. intros ne' ENE. apply nf_with. intros nc' ENC.
  cbn [set_corners c_nv c_nt c_ne c_nc c_vertices c_ttv c_attr c_tta c_ttt c_ttf c_tte c_eoff c_ett c_ete c_ttc c_coff c_ctt c_ctc] in *.
  rewrite (ar_last _ _ _ _ _ _ _ _ AR) in ENC. apply some_eq in ENC. subst nc'. rewrite V1, V2, V4.
  assert (D' : is3 d = false) by (rewrite D; reflexivity). rewrite D'.
  apply nf_andthen; [discriminate|]. apply nf_andthen; [discriminate|]. apply nf_andthen; [discriminate|].
  apply nf_andthen.
  { apply nf_each. intros j Hj. rewrite (ar_pair _ _ _ _ _ _ _ _ AR (children d)); [discriminate| |lia]. auto. }
  apply nf_andthen; [rewrite V3; discriminate|].
  apply nf_andthen; [discriminate|]. apply nf_each. intros t Ht. unfold valid_tree. rewrite D'.
  cbn [set_corners c_nv c_nt c_ne c_nc c_vertices c_ttv c_attr c_tta c_ttt c_ttf c_tte c_eoff c_ett c_ete c_ttc c_coff c_ctt c_ctc].
  apply nf_andthen.
  { apply nf_each. intros f Hf. change (valid_face d (set_corners c2 (zlen gs) ttc off ts cs) t f) with (valid_face d c2 t f). rewrite FV by lia. discriminate. }
  apply nf_andthen; [discriminate|]. apply nf_andthen.
  { apply nf_each. intros a Ha. rewrite (ar_offset _ _ _ _ _ _ _ _ AR) by lia. discriminate. }
  destruct (0 <? zlen gs); [|discriminate]. apply nf_each. intros k Hk. eapply corner_nf; eauto; lia.
Qed.

Section Final.
  Variables (c : conn) (gs : list (list (Z * Z))) (tl tr fl fr o : Z).
  Hypothesis AL : allocated D2 c.
  Hypothesis V : conn_is_valid D2 c = Some true.
  Hypothesis ST : stores D2 c gs.
  Hypothesis WH : whole D2 c gs.
  Hypothesis BL : boundary D2 c tl fl.
  Hypothesis BR : boundary D2 c tr fr.
  Hypothesis NE : (tl, fl) <> (tr, fr).
  Hypothesis HO : 0 <= o < 2.

  Lemma FV0 : forall t f, 0 <= t < c_nt c -> 0 <= f < 4 -> valid_face D2 c t f = Some true.
  Proof. intros t f Ht Hf. destruct (conn_valid_inv _ _ V) as (ne & nc & _ & _ & _ & _ & TV). apply (proj1 (valid_tree_inv _ _ _ _ _ (TV t Ht)) f Hf). Qed.
  Lemma index_face t f t' f' : 0 <= f < 4 -> 0 <= f' < 4 -> 4 * t + f = 4 * t' + f' -> t = t' /\ f = f'.
  Proof. lia. Qed.

  Local Notation iL := (4 * tl + fl).
  Local Notation iR := (4 * tr + fr).
  Local Notation ttt' := (put (put (c_ttt c) iL tr) iR tl).
  Local Notation ttf' := (put (put (c_ttf c) iL (fr + 4 * o)) iR (fl + 4 * o)).
  Local Notation c2 := (set_faces c ttt' ttf').

  Lemma lens0 : zlen (c_ttt c) = c_nt c * 4 /\ zlen (c_ttf c) = c_nt c * 4 /\ 0 <= iL < c_nt c * 4 /\ 0 <= iR < c_nt c * 4.
  Proof. destruct AL as (_ & _ & _ & _ & _ & L1 & L2 & _). destruct BL as (A & B & _). destruct BR as (C & D & _). cbn [faces] in *. lia. Qed.
  Lemma lens2 : zlen (put (c_ttt c) iL tr) = c_nt c * 4 /\ zlen (put (c_ttf c) iL (fr + 4 * o)) = c_nt c * 4 /\ zlen ttt' = c_nt c * 4 /\ zlen ttf' = c_nt c * 4.
  Proof.
    destruct lens0 as (L1 & L2 & RL & RR). assert (P1 : zlen (put (c_ttt c) iL tr) = c_nt c * 4) by (rewrite zlen_put; lia). assert (P2 : zlen (put (c_ttf c) iL (fr + 4 * o)) = c_nt c * 4) by (rewrite zlen_put; lia).
    rewrite !zlen_put; lia.
  Qed.
  Lemma get_new t f : 0 <= f < 4 -> zget ttt' (4 * t + f) = (if (t =? tr) && (f =? fr) then Some tl else if (t =? tl) && (f =? fl) then Some tr else zget (c_ttt c) (4 * t + f)) /\
    zget ttf' (4 * t + f) = (if (t =? tr) && (f =? fr) then Some (fl + 4 * o) else if (t =? tl) && (f =? fl) then Some (fr + 4 * o) else zget (c_ttf c) (4 * t + f)).
  Proof.
    intros Hf. destruct lens0 as (L1 & L2 & RL & RR). destruct lens2 as (P1 & P2 & _). destruct BL as (_ & B1 & _). destruct BR as (_ & B2 & _). cbn [faces] in *.
    rewrite !get_put by lia.
    replace (4 * t + f =? iR) with ((t =? tr) && (f =? fr)) by lia. replace (4 * t + f =? iL) with ((t =? tl) && (f =? fl)) by lia. auto.
  Qed.
  Lemma links_new t f nt nf q : 0 <= f < 4 -> links c2 t f nt nf q <->
    (t = tl /\ f = fl /\ nt = tr /\ nf = fr /\ q = o) \/ (t = tr /\ f = fr /\ nt = tl /\ nf = fl /\ q = o) \/ links c t f nt nf q.
  Proof.
    intros Hf. unfold links. cbn [set_faces c_ttt c_ttf]. destruct (get_new t f Hf) as (-> & ->). destruct BL as (_ & B1 & A1 & A2). destruct BR as (_ & B2 & A3 & A4). cbn [faces] in *.
    assert (NEQ : ~ (tl = tr /\ fl = fr)) by (intros (-> & ->); auto).
    destruct ((t =? tr) && (f =? fr)) eqn:C1; [|destruct ((t =? tl) && (f =? fl)) eqn:C2].
    - assert (t = tr /\ f = fr) as (-> & ->) by lia. rewrite A3, A4. split.
      + intros (E1 & E2 & Hn & Hq & N). apply some_eq in E1, E2. right. left. assert (nf = fl) by lia. lia.
      + intros [(-> & -> & _)|[(_ & _ & -> & -> & ->)|(E1 & E2 & Hn & Hq & N)]]; [exfalso; auto|repeat split; auto; lia|]. apply some_eq in E1, E2. exfalso. apply N. lia.
    - assert (t = tl /\ f = fl) as (-> & ->) by lia. rewrite A1, A2. split.
      + intros (E1 & E2 & Hn & Hq & N). apply some_eq in E1, E2. left. assert (nf = fr) by lia. lia.
      + intros [(_ & _ & -> & -> & ->)|[(-> & -> & _)|(E1 & E2 & Hn & Hq & N)]]; [repeat split; auto; lia|exfalso; auto|]. apply some_eq in E1, E2. exfalso. apply N. lia.
    - split; [tauto|]. intros [(-> & -> & _)|[(-> & -> & _)|H]]; [lia|lia|auto].
  Qed.
  Lemma valid_of_links (k : conn) t f : zlen (c_ttt k) = c_nt k * 4 -> 0 <= f < 4 ->
    ((zget (c_ttt k) (4 * t + f) = Some t /\ zget (c_ttf k) (4 * t + f) = Some f /\ 0 <= t < c_nt k) \/ exists nt nf q, links k t f nt nf q /\ links k nt nf t f q /\ 0 <= nt < c_nt k) -> valid_face D2 k t f = Some true.
  Proof.
    clear. intros LN Hf H. unfold valid_face. cbn [faces half]. replace (t * 4 + f) with (4 * t + f) by lia.
    destruct H as [(E1 & E2 & R)|(nt & nf & q & (L1 & L2 & Hn & Hq & N) & (M1 & M2 & _ & _ & _) & R)].
    - rewrite E1, E2. cbn [with_]. replace (in_range t 0 (c_nt k)) with true by (symmetry; apply range_true; auto). replace (in_range f 0 (4 * 2)) with true by (symmetry; apply range_true; lia). cbn [andthen].
      rewrite Z.mod_small, Z.div_small by lia. rewrite !Z.eqb_refl. reflexivity.
    - rewrite L1, L2. cbn [with_]. replace (in_range nt 0 (c_nt k)) with true by (symmetry; apply range_true; auto). replace (in_range (nf + 4 * q) 0 (4 * 2)) with true by (symmetry; apply range_true; lia). cbn [andthen].
      destruct (code_parts nf q Hn ltac:(lia)) as (-> & ->). replace (nt * 4 + nf) with (4 * nt + nf) by lia. rewrite M1, M2. cbn [with_].
      replace ((nt =? t) && (nf =? f)) with false by lia. replace (negb (nt =? t) || negb (nf =? f)) with true by lia. cbn [negb andb andthen]. rewrite !Z.eqb_refl. reflexivity.
  Qed.
  Lemma FV2 t f : 0 <= t < c_nt c2 -> 0 <= f < 4 -> valid_face D2 c2 t f = Some true.
  Proof.
    change (c_nt c2) with (c_nt c). intros Ht Hf. destruct lens2 as (_ & _ & P3 & P4). apply valid_of_links; [exact P3|auto|]. change (c_nt c2) with (c_nt c).
    assert (RL : 0 <= tl < c_nt c /\ 0 <= fl < 4) by (destruct BL as (A & B & _); auto). assert (RR : 0 <= tr < c_nt c /\ 0 <= fr < 4) by (destruct BR as (A & B & _); auto).
    destruct ((t =? tl) && (f =? fl)) eqn:C1; [|destruct ((t =? tr) && (f =? fr)) eqn:C2].
    - right. exists tr, fr, o. assert (t = tl /\ f = fl) as (-> & ->) by lia. rewrite !links_new by tauto. tauto.
    - right. exists tl, fl, o. assert (t = tr /\ f = fr) as (-> & ->) by lia. rewrite !links_new by tauto. tauto.
    - destruct (link_valid c FV0 t f Ht Hf) as [(A & B)|(nt & nf & q & L & M & R)].
      + left. cbn [set_faces c_ttt c_ttf]. destruct (get_new t f Hf) as (-> & ->). rewrite C1, C2. auto.
      + right. exists nt, nf, q. rewrite !links_new; [auto| |auto]. destruct L as (_ & _ & X & _). auto.
  Qed.
  Lemma next_new x y : corner_of D2 c x -> next D2 c2 x y <-> next D2 c x y \/ touch tl tr fl fr o x y \/ touch tl tr fl fr o y x.
  Proof.
    destruct x as (t & k). intros (Ht & Hk). cbn [fst snd children] in Ht, Hk. assert (RL : 0 <= fl < 4) by (destruct BL as (A & B & _); auto). assert (RR : 0 <= fr < 4) by (destruct BR as (A & B & _); auto).
    rewrite (next_link c2 FV2 t k y Ht Hk), (next_link c FV0 t k y Ht Hk). split.
    - intros (f & nt & nf & q & j & Hf & L & Hj & Ek & ->). apply links_new in L as [(-> & -> & -> & -> & ->)|[(-> & -> & -> & -> & ->)|L]]; [| |left; exists f, nt, nf, q, j; auto|auto].
      + right. left. exists j. subst k. auto.
      + right. right. destruct (flip_range j o Hj HO) as (F1 & F2). exists (Z.lxor j o). rewrite F2. subst k. auto.
    - intros [(f & nt & nf & q & j & Hf & L & Hj & Ek & ->)|[(i & Hi & E & ->)|(i & Hi & -> & E)]].
      + exists f, nt, nf, q, j. rewrite links_new by auto. auto 10.
      + injection E as -> ->. exists fl, tr, fr, o, i. rewrite links_new by auto. auto 10.
      + injection E as -> ->. destruct (flip_range i o Hi HO) as (F1 & F2). exists fr, tl, fl, o, (Z.lxor i o). rewrite links_new, F2 by auto. auto 10.
  Qed.

  Local Notation xl i := (tl, face_corners D2 fl i).
  Local Notation yr i := (tr, face_corners D2 fr (Z.lxor i o)).
  Lemma in_l i : 0 <= i < 2 -> corner_of D2 c (xl i).
  Proof. intros Hi. destruct BL as (A & B & _). split; cbn [fst snd children]; [auto|]. apply face_corner_range; auto. Qed.
  Lemma in_r i : 0 <= i < 2 -> corner_of D2 c (yr i).
  Proof. intros Hi. destruct BR as (A & B & _). split; cbn [fst snd children]; [auto|]. apply face_corner_range; auto. apply flip_range; auto. Qed.

  Lemma join_done : exists c' gs',
    join_faces D2 c tl tr fl fr o = Some c' /\ only_corners c2 c' /\ stores D2 c' gs' /\ whole D2 c' gs' /\ allocated D2 c' /\ conn_is_valid D2 c' = Some true /\
    (forall u v, corner_of D2 c u -> meet D2 c' gs' u v <-> generated c gs tl tr fl fr o u v).
  Proof.
    assert (S0 : state c c gs) by (constructor; auto).
    pose proof (in_l 0 ltac:(lia)) as L0. pose proof (in_l 1 ltac:(lia)) as L1. pose proof (in_r 0 ltac:(lia)) as R0. pose proof (in_r 1 ltac:(lia)) as R1.
    destruct (join_state c FV0 c gs _ _ S0 L0 R0) as (ca & ga & Ea & Sa & Na & A1 & A2 & A3 & A4).
    destruct (join_state c FV0 ca ga _ _ Sa L1 R1) as (cb & gb & Eb & Sb & Nb & B1 & B2 & B3 & B4).
    unfold join_faces. cbn [is3 ofold]. cbn [fst snd] in Ea, Eb.
    assert (XO : forall i, (if o =? 0 then i else Z.lxor 1 i) = Z.lxor i o) by (intros i; assert (o = 0 \/ o = 1) as [->| ->] by (clear - HO; lia); cbn [Z.eqb]; [rewrite Z.lxor_0_r; reflexivity|apply Z.lxor_comm]).
    unfold join_face_corner. rewrite !XO, Ea, Eb.
    destruct Sb as [O STb W]. assert (OC : exists nc a b e g, cb = set_corners c nc a b e g) by (destruct O as [O|O]; [exact O|exists (c_nc c), (c_ttc c), (c_coff c), (c_ctt c), (c_ctc c); rewrite O; destruct c; reflexivity]).
    destruct OC as (nc & ttc & off & ts & cs & EC).
    destruct lens0 as (Z1 & Z2 & Z3 & Z4). destruct lens2 as (P1 & P2 & P3 & P4). cbn [faces].
    assert (TT : c_ttt cb = c_ttt c /\ c_ttf cb = c_ttf c) by (rewrite EC; auto). destruct TT as (-> & ->).
    rewrite !oputs1 by lia.
    eexists. exists gb. split; [reflexivity|]. rewrite EC in *. clear cb EC O.
    change (set_faces (set_corners c nc ttc off ts cs) ttt' ttf') with (set_corners c2 nc ttc off ts cs).
    assert (SC : stores D2 (set_corners c2 nc ttc off ts cs) gb) by (destruct STb; constructor; assumption).
    (* the touching corners are stored *)
    assert (TI : forall x y, touch tl tr fl fr o x y -> In x (concat gb) /\ In y (concat gb) /\ together gb x y).
    { assert (K : forall i, i = 0 \/ i = 1 -> In (xl i) (concat gb) /\ In (yr i) (concat gb) /\ together gb (xl i) (yr i)).
      { intros i Hi. assert (Ix : corner_of D2 c (xl i)) by (apply in_l; lia). assert (Iy : corner_of D2 c (yr i)) by (apply in_r; lia).
        assert (X : In (xl i) (concat gb)) by (destruct Hi as [->| ->]; auto). assert (Y : In (yr i) (concat gb)) by (destruct Hi as [->| ->]; auto). split; [auto|]. split; [auto|].
        assert (M : meet D2 c gb (xl i) (yr i)).
        { apply B4; [auto|]. unfold joined. destruct Hi as [->| ->].
          - left. apply A4; [auto|]. unfold joined. right. left. split; left; auto.
          - right. left. split; left; auto. }
        apply in_concat in X as (g & Ig & Xg). exists g. split; [auto|]. split; [auto|].
        eapply (proj1 (meet_stored (set_corners c nc ttc off ts cs) gb STb W g (xl i) (yr i) Ig Xg)). exact M. }
      intros x y (i & Hi & -> & ->). apply K. lia. }
    assert (MEET : forall u v, corner_of D2 c u -> meet D2 (set_corners c2 nc ttc off ts cs) gb u v <-> meet D2 c gb u v).
    { intros u v Iu. unfold meet. change (next D2 (set_corners c2 nc ttc off ts cs) u v) with (next D2 c2 u v). rewrite next_new by auto.
      split; [|tauto]. intros [H|[[H|[H|H]]|H]]; [auto|auto| | |auto]; apply TI in H as (_ & _ & g & G1 & G2 & G3); right; right; exists g; auto. }
    split; [repeat eexists|]. split; [exact SC|].
    assert (AL2 : allocated D2 c2) by (destruct AL as (Q1 & Q2 & Q3 & Q4 & Q5 & Q6 & Q7 & Q8 & Q9 & Q10); unfold allocated; cbn [set_faces c_nv c_nt c_ne c_nc c_ttv c_ttt c_ttf c_tte c_eoff c_ett c_ete c_ttc c_coff c_ctt c_ctc faces] in *; tauto).
    assert (AR : arranged (children D2) (c_nt c2) snd gb ttc off ts cs) by (apply (stores_arranged D2 (set_corners c2 nc ttc off ts cs) gb Nb SC)).
    assert (NC : nc = zlen gb) by (apply (st_nc _ _ _ SC)).
    split; [|split; [|split]].
    - split.
      + intros g x y Ig Ix N. change (next D2 (set_corners c2 nc ttc off ts cs) x y) with (next D2 c2 x y) in N. rewrite next_new in N by (apply (st_range _ _ _ STb); apply in_concat; eauto).
        destruct N as [N|[N|N]]; [eapply (proj1 W); eauto| |]; apply TI in N as (_ & _ & h & H1 & H2 & H3).
        * rewrite (group_unique _ _ STb g h x); auto.
        * rewrite (group_unique _ _ STb g h x); auto.
      + intros x y z Ix NX. change (next D2 (set_corners c2 nc ttc off ts cs)) with (next D2 c2). change (corner_of D2 c x) in Ix. intros N1 N2.
        assert (N1' : next D2 c x y).
        { rewrite next_new in N1 by auto. destruct N1 as [N|[N|N]]; [auto| |]; exfalso; apply TI in N as (H1 & H2 & _); auto. }
        assert (Iy : corner_of D2 c y) by (eapply next_range; eauto; apply FV0).
        assert (NY : ~ In y (concat gb)).
        { intros K. apply in_concat in K as (g & Ig & Yg). apply NX. apply in_concat. exists g. split; [auto|]. eapply (proj1 W); [exact Ig|exact Yg|]. eapply next_sym; eauto. apply FV0. }
        assert (N2' : next D2 c y z).
        { rewrite next_new in N2 by auto. destruct N2 as [N|[N|N]]; [auto| |]; exfalso; apply TI in N as (H1 & H2 & _); auto. }
        rewrite next_new by auto. destruct (proj2 W x y z Ix NX N1' N2'); auto.
    - rewrite NC. eapply allocated3; eauto.
    - rewrite NC. pose proof V as V'. unfold conn_is_valid in V'. apply with_true in V' as (ne' & E1' & V'). apply with_true in V' as (nc' & E2' & V').
      apply andthen_true in V' as (V1 & V'). apply andthen_true in V' as (V2 & V'). apply andthen_true in V' as (_ & V'). apply andthen_true in V' as (_ & V'). apply andthen_true in V' as (V3 & V'). apply andthen_true in V' as (V4 & _).
      apply some_true in V1, V2, V4. apply valid_part; auto; try exact FV2.
      + apply (st_range _ _ _ SC).
      + apply (st_once _ _ _ SC).
    - intros u v Iu. rewrite MEET by auto.
      pose (I := corner_of D2 c). pose (M := meet D2 c gs).
      assert (EQ : eq_on I M).
      { split; [intros; left; auto|]. split.
        - intros x y Ix H. split; [eapply meet_range; eauto; apply FV0|eapply meet_sym; eauto; apply FV0].
        - intros x y z Ix H K. eapply meet_trans; eauto. apply FV0. }
      assert (E1 : eq_on I (joined M (xl 0) (yr 0))) by (apply joined_eq; auto).
      assert (E2 : eq_on I (joined (joined M (xl 0) (yr 0)) (xl 1) (yr 1))) by (apply joined_eq; auto).
      set (J := joined (joined M (xl 0) (yr 0)) (xl 1) (yr 1)) in *.
      assert (B5 : forall p q, I p -> meet D2 c gb p q <-> J p q).
      { intros p q Ip. rewrite B4 by auto. unfold J. unfold joined at 1 2. rewrite !A4 by auto. reflexivity. }
      rewrite (B5 u v Iu). split.
      + assert (G1 : forall p q, I p -> M p q -> generated c gs tl tr fl fr o p q) by (intros p q Ip H; apply rst_step; split; [exact Ip|left; exact H]).
        assert (T : forall i, i = 0 \/ i = 1 -> generated c gs tl tr fl fr o (xl i) (yr i)).
        { intros i Hi. apply rst_step. split; [apply in_l; lia|]. right. exists i. split; [lia|auto]. }
        assert (GT : forall p q w, generated c gs tl tr fl fr o p q -> generated c gs tl tr fl fr o q w -> generated c gs tl tr fl fr o p w) by (intros p q w H K; eapply rst_trans; [exact H|exact K]).
        assert (GS : forall p q, generated c gs tl tr fl fr o p q -> generated c gs tl tr fl fr o q p) by (intros p q H; apply rst_sym; exact H).
        assert (G2 : forall p q, I p -> joined M (xl 0) (yr 0) p q -> generated c gs tl tr fl fr o p q).
        { intros p q Ip [H|[(H & K)|(H & K)]]; [auto| |].
          - apply (GT _ (xl 0)); [auto|]. apply (GT _ (yr 0)); [apply T; auto|auto].
          - apply (GT _ (yr 0)); [auto|]. apply (GT _ (xl 0)); [apply GS; apply T; auto|auto]. }
        intros [H|[(H & K)|(H & K)]]; [auto| |].
        * apply (GT _ (xl 1)); [auto|]. apply (GT _ (yr 1)); [apply T; auto|auto].
        * apply (GT _ (yr 1)); [auto|]. apply (GT _ (xl 1)); [apply GS; apply T; auto|auto].
      + intros G. destruct E2 as (RF & SY & TR).
        assert (P : (I u <-> I v) /\ (I u -> J u v)); [|apply P; auto]. clear Iu. revert G. unfold generated. intros G.
        induction G as [x y (Ix & H)|x|x y G (IH1 & IH2)|x y z G1 (IH1 & IH2) G2 (IH3 & IH4)].
        * assert (JX : J x y).
          { destruct H as [H|(i & Hi & -> & ->)]; [unfold J, joined; auto|]. unfold J. assert (i = 0 \/ i = 1) as [->| ->] by lia.
            - left. right. left. split; apply (proj1 EQ); auto.
            - right. left. split; apply (proj1 E1); auto. }
          destruct (SY x y Ix JX) as (Iy & _). split; [split; auto|auto].
        * split; [tauto|auto].
        * split; [tauto|]. intros Iy. apply SY; [apply IH1; auto|]. apply IH2. apply IH1. auto.
        * split; [tauto|]. intros Ix. apply (TR x y z Ix); auto. apply IH4. apply IH1. auto.
  Qed.
End Final.

(** ** C72 *)

(** A valid planar connectivity whose faces and stored corners agree stays one if two of its boundary
    faces are joined.  The two faces are linked with the orientation, no other face changes, nothing but
    faces and corners changes, and the tree corners that meet are those that have to. *)
Theorem C72_join_faces_2d : forall c gs tl tr fl fr o,
  allocated D2 c -> conn_is_valid D2 c = Some true -> stores D2 c gs -> whole D2 c gs ->
  boundary D2 c tl fl -> boundary D2 c tr fr -> (tl, fl) <> (tr, fr) -> 0 <= o < 2 ->
  exists c' gs', join_faces D2 c tl tr fl fr o = Some c' /\
    allocated D2 c' /\ conn_is_valid D2 c' = Some true /\ stores D2 c' gs' /\ whole D2 c' gs' /\
    (forall t f, 0 <= f < 4 -> zget (c_ttt c') (4 * t + f) = (if (t =? tl) && (f =? fl) then Some tr else if (t =? tr) && (f =? fr) then Some tl else zget (c_ttt c) (4 * t + f))) /\
    (forall t f, 0 <= f < 4 -> zget (c_ttf c') (4 * t + f) = (if (t =? tl) && (f =? fl) then Some (fr + 4 * o) else if (t =? tr) && (f =? fr) then Some (fl + 4 * o) else zget (c_ttf c) (4 * t + f))) /\
    (c_nt c' = c_nt c /\ c_nv c' = c_nv c /\ c_vertices c' = c_vertices c /\ c_ttv c' = c_ttv c /\ c_attr c' = c_attr c /\ c_tta c' = c_tta c) /\
    forall x y, corner_of D2 c x -> meet D2 c' gs' x y <-> generated c gs tl tr fl fr o x y.
Proof.
  intros c gs tl tr fl fr o AL V ST WH BL BR NE HO.
  destruct (join_done c gs tl tr fl fr o AL V ST WH BL BR NE HO) as (c' & gs' & E & OC & S' & W' & A' & V' & M').
  exists c', gs'. split; [exact E|]. split; [exact A'|]. split; [exact V'|]. split; [exact S'|]. split; [exact W'|].
  destruct OC as (nc & a & b & e & g & ->). cbn [set_corners set_faces c_ttt c_ttf c_nt c_nv c_vertices c_ttv c_attr c_tta].
  assert (NEQ : ~ (tl = tr /\ fl = fr)) by (intros (-> & ->); auto).
  split; [|split; [|split; [auto 10|exact M']]]; intros t f Hf; destruct (get_new c tl tr fl fr o AL BL BR t f Hf) as (G1 & G2).
  - rewrite G1. destruct ((t =? tr) && (f =? fr)) eqn:C1, ((t =? tl) && (f =? fl)) eqn:C2; auto. exfalso. lia.
  - rewrite G2. destruct ((t =? tr) && (f =? fr)) eqn:C1, ((t =? tl) && (f =? fl)) eqn:C2; auto. exfalso. lia.
Qed.
Print Assumptions C72_join_faces_2d.

(** What p4est_find_corner_transform reports afterwards, together with the neighbors across the faces,
    are the corners that meet by the old connectivity and the two faces. *)
Theorem C72_join_faces_2d_neighbors : forall c gs tl tr fl fr o c',
  allocated D2 c -> conn_is_valid D2 c = Some true -> stores D2 c gs -> whole D2 c gs ->
  boundary D2 c tl fl -> boundary D2 c tr fr -> (tl, fl) <> (tr, fr) -> 0 <= o < 2 -> join_faces D2 c tl tr fl fr o = Some c' ->
  forall t k, 0 <= t < c_nt c -> 0 <= k < 4 -> exists l, find_corner_transform D2 c' t k = Some l /\
    forall t' k', (t' = t /\ k' = k) \/ across_face D2 c' t k t' k' \/ In (t', k') l <-> generated c gs tl tr fl fr o (t, k) (t', k').
Proof.
  intros c gs tl tr fl fr o c' AL V ST WH BL BR NE HO E t k Ht Hk.
  destruct (C72_join_faces_2d c gs tl tr fl fr o AL V ST WH BL BR NE HO) as (c'' & gs' & E' & A' & V' & S' & W' & _ & _ & (NT & _) & M').
  rewrite E in E'. apply some_eq in E'. subst c''.
  assert (Ix : corner_of D2 c (t, k)) by (split; auto). assert (Ix' : corner_of D2 c' (t, k)) by (split; cbn [fst snd children]; rewrite ?NT; auto).
  assert (NC : c_nc c' = zlen gs') by (apply (st_nc _ _ _ S')).
  destruct (in_dec pdec (t, k) (concat gs')) as [J|J].
  - apply in_concat in J as (g & Ig & Xg). destruct (in_index (t, k) gs' g Xg Ig) as (j & Ej). pose proof (zget_range _ _ _ Ej) as Rj.
    pose proof (st_in _ _ _ S' _ _ _ Ej Xg) as Ac. cbn [fst snd children] in Ac.
    destruct (C48_corner_neighbors D2 c' t k j V') as (l & F & _ & SP); [lia|exact Hk|lia|destruct A' as (_ & _ & Q & _); exact Q|exact Ac|lia|].
    exists l. split; [exact F|]. intros t' k'. rewrite <- M' by auto. rewrite (meet_stored c' gs' S' W' g (t, k) (t', k') Ig Xg). rewrite SP.
    assert (NN : c_ttc c' <> []) by (intros Z; rewrite (st_null _ _ _ S' Z) in Ig; destruct Ig).
    assert (GI : In (t', k') g <-> 0 <= t' < c_nt c' /\ 0 <= k' < children D2 /\ zget (c_ttc c') (children D2 * t' + k') = Some j).
    { split.
      - intros I. destruct (stored_range c' gs' S' g _ Ig I) as (Q1 & Q2). split; [exact Q1|]. split; [exact Q2|]. apply (st_in _ _ _ S' _ _ _ Ej I).
      - intros (Q1 & Q2 & Q3). destruct (in_dec pdec (t', k') (concat gs')) as [K|K].
        + apply in_concat in K as (h & Ih & Yh). destruct (in_index (t', k') gs' h Yh Ih) as (i & Ei). pose proof (st_in _ _ _ S' _ _ _ Ei Yh) as Q4. cbn [fst snd] in Q4. rewrite Q3 in Q4. apply some_eq in Q4. subst i. rewrite Ej in Ei. apply some_eq in Ei. subst. auto.
        + pose proof (st_out _ _ _ S' (t', k') NN Q1 Q2 K) as Q4. cbn [fst snd] in Q4. rewrite Q3 in Q4. apply some_eq in Q4. lia. }
    assert (AF : across_face D2 c' t k t' k' -> In (t', k') g) by (intros N; apply (proj1 W' g (t, k) (t', k') Ig Xg N)).
    assert (AE : ~ across_edge D2 c' t k t' k') by (intros (Z & _); discriminate).
    split.
    + intros [(-> & ->)|[H|H]]; [auto|auto|]. apply GI. tauto.
    + intros I. destruct (pdec (t', k') (t, k)) as [Q|Q]; [injection Q as -> ->; auto|]. right.
      assert (Q' : ~ (t' = t /\ k' = k)) by (intros (-> & ->); auto).
      assert (DEC : across_face D2 c' t k t' k' \/ ~ across_face D2 c' t k t' k').
      { destruct (conn_valid_inv _ _ V') as (ne & nc & _ & _ & _ & _ & TV).
        assert (FVc : forall t f, 0 <= t < c_nt c' -> 0 <= f < 4 -> valid_face D2 c' t f = Some true) by (intros t0 f0 R0 F0; apply (proj1 (valid_tree_inv _ _ _ _ _ (TV t0 R0)) f0 F0)).
        destruct (store_faces_spec c' FVc t k (proj1 Ix') Hk) as (fs & _ & SF). specialize (SF (t', k')). unfold next in SF. cbn [fst snd] in SF. destruct (in_dec pdec (t', k') fs); tauto. }
      destruct DEC as [D|D]; [auto|]. right. apply GI in I. tauto.
  - exists []. assert (F : find_corner_transform D2 c' t k = Some []).
    { unfold find_corner_transform. destruct (c_nc c' =? 0) eqn:Z0; [reflexivity|]. 
      assert (NN : c_ttc c' <> []) by (intros Q; rewrite (st_null _ _ _ S' Q) in NC; change (zlen (@nil (list (Z * Z)))) with 0 in NC; lia).
      destruct Ix' as (I1 & I2). pose proof (st_out _ _ _ S' (t, k) NN I1 I2 J) as Q. cbn [fst snd] in Q. rewrite Q. reflexivity. }
    split; [exact F|]. intros t' k'. rewrite <- M' by auto. unfold meet, next. cbn [fst snd In]. split.
    + intros [(-> & ->)|[H|[]]]; auto.
    + intros [Q|[H|(g & Ig & Xg & _)]]; [injection Q as <- <-; auto|auto|]. exfalso. apply J. apply in_concat. eauto.
Qed.
Print Assumptions C72_join_faces_2d_neighbors.

(** ** examples *)
(** trees without any connection *)
Definition isolated (d : dim) (n : Z) : conn :=
  {| c_nv := 0; c_nt := n; c_ne := 0; c_nc := 0; c_vertices := None; c_ttv := None; c_attr := 0; c_tta := None;
     c_ttt := flat_map (fun t => map (fun _ => t) (below (faces d))) (below n); c_ttf := flat_map (fun _ => below (faces d)) (below n);
     c_tte := []; c_eoff := [0]; c_ett := []; c_ete := []; c_ttc := []; c_coff := [0]; c_ctt := []; c_ctc := [] |}.

Lemma isolated_next n x y : next D2 (isolated D2 n) x y -> corner_of D2 (isolated D2 n) x -> False.
Proof.
  intros (i & f & code & Hi & Ef & E1 & E2 & N & _) ((H1 & H2) & Hk). cbn [isolated c_nt c_ttt c_ttf children faces] in *. change (nd D2) with 2 in Hi.
  assert (Hf : 0 <= f < 4) by (apply (corner_face_table (snd x) f Hk); eauto).
  assert (G : forall (F : Z -> list Z) (l : list Z) t, (forall u, length (F u) = 4%nat) -> zget l t <> None -> zget (flat_map F l) (4 * t + f) = match zget l t with Some u => zget (F u) f | None => None end).
  { clear - Hf. intros F l. induction l as [|a l IH]; intros t L R; [rewrite zget_empty in R; congruence|].
    assert (0 <= t) by (unfold zget in R; destruct (t <? 0) eqn:E; [congruence|lia]).
    cbn [flat_map]. destruct (Z.eq_dec t 0) as [->|NZ].
    - rewrite zg_app1 by (unfold zlen; rewrite L; lia). replace (4 * 0 + f) with f by lia. reflexivity.
    - rewrite zg_app2 by (unfold zlen; rewrite L; lia). rewrite zget_cons in * by lia. rewrite <- (IH (t - 1)) by auto. f_equal. unfold zlen. rewrite L. lia. }
  assert (B : zget (below n) (fst x) = Some (fst x)).
  { unfold below. rewrite map_zget, zg by lia. rewrite (nth_error_nth' _ 0%nat) by (rewrite seq_length; lia). rewrite seq_nth by lia. cbn. f_equal. lia. }
  rewrite G in E1, E2 by (auto; rewrite B; discriminate). rewrite B in E1, E2. apply N.
  assert (f = 0 \/ f = 1 \/ f = 2 \/ f = 3) as [Q|[Q|[Q|Q]]] by lia; rewrite Q in E1, E2 |- *; vm_compute in E1, E2; apply some_eq in E1, E2; auto.
Qed.
Lemma isolated_stores n : stores D2 (isolated D2 n) [] /\ whole D2 (isolated D2 n) [].
Proof.
  split.
  - constructor; cbn [isolated c_nc c_coff c_ctt c_ctc c_ttc c_nt concat map lens sums]; try reflexivity; try congruence; try (intros x []; fail).
    + constructor.
    + intros j g x E. rewrite zget_empty in E. discriminate.
  - split; [intros g x y []|]. intros x y z I _ N. exfalso. eapply isolated_next; eauto.
Qed.
(** two squares are joined, then a third one, then a ring is closed *)
Definition got (x : option conn) : conn := match x with Some c => c | None => isolated D2 0 end.
Definition chain2 (o : Z) : option conn := join_faces D2 (isolated D2 3) 0 1 1 0 o.
Definition chain3 (o : Z) : option conn := do c <- chain2 o; join_faces D2 c 1 2 3 2 0.
Example C72_two_squares : exists gs c', stores D2 (isolated D2 3) gs /\ whole D2 (isolated D2 3) gs /\ allocated D2 (isolated D2 3) /\ conn_is_valid D2 (isolated D2 3) = Some true /\
  boundary D2 (isolated D2 3) 0 1 /\ boundary D2 (isolated D2 3) 1 0 /\ join_faces D2 (isolated D2 3) 0 1 1 0 1 = Some c' /\
  c_ttt c' = [0; 1; 0; 0; 0; 1; 1; 1; 2; 2; 2; 2] /\ c_ttf c' = [0; 4; 2; 3; 5; 1; 2; 3; 0; 1; 2; 3] /\
  c_ttc c' = [-1; 0; -1; 2; 2; -1; 0; -1; -1; -1; -1; -1] /\ conn_is_valid D2 c' = Some true.
Proof.
  destruct (isolated_stores 3) as (S & W). exists [], (got (chain2 1)). split; [exact S|]. split; [exact W|].
  assert (A : allocated D2 (isolated D2 3)).
  { unfold allocated. cbn [isolated c_nv c_nt c_ne c_nc]. do 4 (split; [lia|]). split; [lia|]. split; [reflexivity|]. split; [reflexivity|]. split; [discriminate|]. split; [reflexivity|lia]. }
  split; [exact A|]. split; [vm_compute; reflexivity|].
  split; [unfold boundary; cbn [isolated c_nt faces]; split; [lia|]; split; [lia|]; split; vm_compute; reflexivity|].
  split; [unfold boundary; cbn [isolated c_nt faces]; split; [lia|]; split; [lia|]; split; vm_compute; reflexivity|].
  split; [vm_compute; reflexivity|]. split; [vm_compute; reflexivity|]. split; [vm_compute; reflexivity|]. split; vm_compute; reflexivity.
Qed.
(** afterwards the diagonal neighbors of the middle square are found *)
Example C72_three_squares : exists c', chain3 1 = Some c' /\ conn_is_valid D2 c' = Some true /\
  map (fun k => find_corner_transform D2 c' 0 k) [0; 1; 2; 3] = [Some []; Some [(2, 0)]; Some []; Some []].
Proof. exists (got (chain3 1)). split; [vm_compute; reflexivity|]. split; vm_compute; reflexivity. Qed.

(** ** 3D: the orientation of joined edges *)

(** the neighbors that p8est_find_edge_transform reports share both end points with the edge: the end
    points have the same number *)
Definition edges_agree (c : conn) : Prop :=
  forall t e l nt ne nflip i, 0 <= t < c_nt c -> 0 <= e < 12 -> find_edge_transform c t e = Some l -> In (nt, ne, nflip) l -> i = 0 \/ i = 1 ->
    zget (c_ttc c) (8 * t + edge_corners e i) = zget (c_ttc c) (8 * nt + edge_corners ne (Z.lxor i nflip)).
Definition oz_eqb (a b : option Z) : bool := match a, b with Some x, Some y => x =? y | None, None => true | _, _ => false end.
Definition edges_agreeb (c : conn) : bool :=
  forallb (fun te : Z * Z => match find_edge_transform c (fst te) (snd te) with None => true | Some l =>
    forallb (fun x : Z * Z * Z => let '(nt, ne, nf) := x in forallb (fun i => oz_eqb (zget (c_ttc c) (8 * fst te + edge_corners (snd te) i)) (zget (c_ttc c) (8 * nt + edge_corners ne (Z.lxor i nf)))) [0; 1]) l end)
    (list_prod (below (c_nt c)) (below 12)).
Lemma edges_agreeb_ok c : edges_agreeb c = true -> edges_agree c.
Proof.
  unfold edges_agreeb. rewrite forallb_forall. intros H t e l nt ne nf i Ht He E I Hi. specialize (H (t, e)). cbn [fst snd] in H. rewrite E in H.
  assert (IP : In (t, e) (list_prod (below (c_nt c)) (below 12))) by (apply in_prod_iff; rewrite !below_in; auto). specialize (H IP). rewrite forallb_forall in H. specialize (H _ I). cbv beta iota in H. rewrite forallb_forall in H.
  specialize (H i). assert (In i [0; 1]) by (destruct Hi as [->| ->]; cbn; auto). specialize (H H0). unfold oz_eqb in H.
  destruct (zget (c_ttc c) (8 * t + edge_corners e i)), (zget (c_ttc c) (8 * nt + edge_corners ne (Z.lxor i nf))); try discriminate; auto. f_equal. lia.
Qed.

Definition cubes2 : conn := Eval vm_compute in got (join_faces D3 (isolated D3 3) 0 1 0 0 1).
Definition cubes3 : conn := Eval vm_compute in got (join_faces D3 cubes2 1 2 4 0 0).
(** Three cubes without connections.  Joining two of them is right.  Joining the third one to the second
    gives an edge whose orientation contradicts that of its end points, and p4est_connectivity_is_valid
    accepts the result: the function assumes that an edge is stored without flip on both sides. *)
Theorem C72_join_edges_3d_refuted : exists c c' t e l nt ne nflip,
  join_faces D3 (isolated D3 3) 0 1 0 0 1 = Some c /\ conn_is_valid D3 c = Some true /\ edges_agree c /\ boundary D3 c 1 4 /\ boundary D3 c 2 0 /\
  join_faces D3 c 1 2 4 0 0 = Some c' /\ conn_is_valid D3 c' = Some true /\
  find_edge_transform c' t e = Some l /\ In (nt, ne, nflip) l /\ 0 <= t < c_nt c' /\ 0 <= e < 12 /\
  zget (c_ttc c') (8 * t + edge_corners e 0) <> zget (c_ttc c') (8 * nt + edge_corners ne nflip) /\
  zget (c_ttc c') (8 * t + edge_corners e 0) = zget (c_ttc c') (8 * nt + edge_corners ne (Z.lxor 1 nflip)).
Proof.
  exists cubes2, cubes3, 0, 4, [(2, 4, 0)], 2, 4, 0.
  split; [vm_compute; reflexivity|]. split; [vm_compute; reflexivity|]. split; [apply edges_agreeb_ok; vm_compute; reflexivity|].
  split; [unfold boundary; cbn [cubes2 c_nt faces]; split; [lia|]; split; [lia|]; split; vm_compute; reflexivity|].
  split; [unfold boundary; cbn [cubes2 c_nt faces]; split; [lia|]; split; [lia|]; split; vm_compute; reflexivity|].
  split; [vm_compute; reflexivity|]. split; [vm_compute; reflexivity|]. split; [vm_compute; reflexivity|].
  split; [left; reflexivity|]. split; [cbn [cubes3 c_nt]; lia|]. split; [lia|]. split; [vm_compute; discriminate|vm_compute; reflexivity].
Qed.
Print Assumptions C72_join_edges_3d_refuted.

(** In 3D as well, whatever the corners and edges, the two faces are linked and nothing else changes in the
    arrays of the faces.  Missing: that the result is valid, and which corners meet. *)
Lemma kept_corner d c t k c' : store_corner d c t k = Some c' -> c_ttt c' = c_ttt c /\ c_ttf c' = c_ttf c /\ c_nt c' = c_nt c.
Proof.
  unfold store_corner. destruct (zget (c_coff c) (c_nc c)); [|discriminate]. destruct (store_faces d c t k (below (dimz d))); [|discriminate]. destruct (if is3 d then _ else _); [|discriminate].
  destruct (oputs _ _ _ _); [|discriminate]. intros E. apply some_eq in E. subst c'. auto.
Qed.
Lemma kept_ensure d c t k c' : ensure_corner d c t k = Some c' -> c_ttt c' = c_ttt c /\ c_ttf c' = c_ttf c /\ c_nt c' = c_nt c.
Proof. unfold ensure_corner. destruct (unstored d c t k) as [[|]|]; [apply kept_corner| |discriminate]. intros E. apply some_eq in E. subst. auto. Qed.
Lemma kept_merge d c a b c' : merge_corners d c a b = Some c' -> c_ttt c' = c_ttt c /\ c_ttf c' = c_ttf c /\ c_nt c' = c_nt c.
Proof.
  unfold merge_corners. repeat (match goal with |- match ?x with _ => _ end = _ -> _ => destruct x; [|discriminate] end). intros E. apply some_eq in E. subst. auto.
Qed.
Lemma kept_join d c tl tr kl kr c' : join_corners d c tl tr kl kr = Some c' -> c_ttt c' = c_ttt c /\ c_ttf c' = c_ttf c /\ c_nt c' = c_nt c.
Proof.
  unfold join_corners. destruct (ensure_corner d c tl kl) as [c1|] eqn:E1; [|discriminate]. destruct (ensure_corner d c1 tr kr) as [c2|] eqn:E2; [|discriminate].
  apply kept_ensure in E1 as (A1 & A2 & A3). apply kept_ensure in E2 as (B1 & B2 & B3). rewrite <- A1, <- A2, <- A3, <- B1, <- B2, <- B3.
  destruct (zget (c_ttc c2) (children d * tl + kl)); [|discriminate]. destruct (zget (c_ttc c2) (children d * tr + kr)); [|discriminate].
  destruct (_ =? _); [intros E; apply some_eq in E; subst; auto|]. apply kept_merge.
Qed.
Lemma kept_edge c t e c' : ensure_edge c t e = Some c' -> c_ttt c' = c_ttt c /\ c_ttf c' = c_ttf c /\ c_nt c' = c_nt c.
Proof.
  unfold ensure_edge. destruct (eunstored c t e) as [[|]|]; [| |discriminate]; [|intros E; apply some_eq in E; subst; auto].
  unfold store_edge. repeat (match goal with |- match ?x with _ => _ end = _ -> _ => destruct x; [|discriminate] end). intros E. apply some_eq in E. subst. auto.
Qed.
Lemma kept_edges c tl tr el er q c' : join_edges c tl tr el er q = Some c' -> c_ttt c' = c_ttt c /\ c_ttf c' = c_ttf c /\ c_nt c' = c_nt c.
Proof.
  unfold join_edges. cbv zeta. destruct (join_corners D3 c _ _ _ _) as [c1|] eqn:E1; [|discriminate]. destruct (join_corners D3 c1 _ _ _ _) as [c2|] eqn:E2; [|discriminate].
  destruct (ensure_edge c2 tl el) as [c3|] eqn:E3; [|discriminate]. destruct (ensure_edge c3 tr er) as [c4|] eqn:E4; [|discriminate].
  apply kept_join in E1 as (A1 & A2 & A3). apply kept_join in E2 as (B1 & B2 & B3). apply kept_edge in E3 as (C1 & C2 & C3). apply kept_edge in E4 as (D1 & D2' & D3').
  rewrite <- A1, <- A2, <- A3, <- B1, <- B2, <- B3, <- C1, <- C2, <- C3, <- D1, <- D2', <- D3'.
  destruct (zget (c_tte c4) (12 * tl + el)); [|discriminate]. destruct (zget (c_tte c4) (12 * tr + er)); [|discriminate].
  destruct (_ =? _); [intros E; apply some_eq in E; subst; auto|].
  unfold merge_edges. repeat (match goal with |- match ?x with _ => _ end = _ -> _ => destruct x; [|discriminate] end). intros E. apply some_eq in E. subst. auto.
Qed.
Lemma kept_fold {A} (f : conn -> A -> option conn) : (forall c x c', f c x = Some c' -> c_ttt c' = c_ttt c /\ c_ttf c' = c_ttf c /\ c_nt c' = c_nt c) ->
  forall l c c', ofold f l c = Some c' -> c_ttt c' = c_ttt c /\ c_ttf c' = c_ttf c /\ c_nt c' = c_nt c.
Proof.
  intros K. induction l as [|x l IH]; intros c c'; cbn [ofold]; [intros E; apply some_eq in E; subst; auto|]. destruct (f c x) as [c1|] eqn:E1; [|discriminate]. intros E.
  apply K in E1 as (A1 & A2 & A3). apply IH in E as (B1 & B2 & B3). rewrite <- A1, <- A2, <- A3. auto.
Qed.
Lemma oputs1_inv S t k v l l' : oputs S [(t, k)] v l = Some l' -> 0 <= S * t + k < zlen l /\ l' = put l (S * t + k) v.
Proof. cbn [oputs fst snd]. unfold oput. destruct (in_range (S * t + k) 0 (zlen l)) eqn:R; [|discriminate]. apply range_true in R. intros E. apply some_eq in E. auto. Qed.
Theorem C72_faces_linked_partial : forall d c tl tr fl fr o c', 0 <= fl < faces d -> 0 <= fr < faces d -> (tl, fl) <> (tr, fr) -> join_faces d c tl tr fl fr o = Some c' ->
  c_nt c' = c_nt c /\
  forall t f, 0 <= f < faces d ->
    zget (c_ttt c') (faces d * t + f) = (if (t =? tl) && (f =? fl) then Some tr else if (t =? tr) && (f =? fr) then Some tl else zget (c_ttt c) (faces d * t + f)) /\
    zget (c_ttf c') (faces d * t + f) = (if (t =? tl) && (f =? fl) then Some (fr + faces d * o) else if (t =? tr) && (f =? fr) then Some (fl + faces d * o) else zget (c_ttf c) (faces d * t + f)).
Proof.
  intros d c tl tr fl fr o c' Hl Hr NE. unfold join_faces.
  destruct (if is3 d then _ else _) as [c1|] eqn:E1; [|discriminate].
  assert (K : c_ttt c1 = c_ttt c /\ c_ttf c1 = c_ttf c /\ c_nt c1 = c_nt c).
  { destruct (is3 d); eapply kept_fold; try exact E1; intros a x b H; [unfold join_face_edge in H; eapply kept_edges; eauto|unfold join_face_corner in H; eapply kept_join; eauto]. }
  destruct K as (K1 & K2 & K3). rewrite K1, K2.
  destruct (oputs _ [(tl, fl)] tr _) as [a|] eqn:O1; [|discriminate]. destruct (oputs _ [(tr, fr)] tl _) as [b|] eqn:O2; [|discriminate].
  destruct (oputs _ [(tl, fl)] (fr + faces d * o) _) as [a'|] eqn:O3; [|discriminate]. destruct (oputs _ [(tr, fr)] (fl + faces d * o) _) as [b'|] eqn:O4; [|discriminate].
  intros E. apply some_eq in E. subst c'. cbn [set_faces c_nt c_ttt c_ttf]. split; [exact K3|]. intros t f Hf.
  apply oputs1_inv in O1 as (R1 & ->). apply oputs1_inv in O2 as (R2 & ->). apply oputs1_inv in O3 as (R3 & ->). apply oputs1_inv in O4 as (R4 & ->).
  rewrite !get_put by auto. assert (NEQ : ~ (tl = tr /\ fl = fr)) by (intros (-> & ->); auto).
  replace (faces d * t + f =? faces d * tr + fr) with ((t =? tr) && (f =? fr)) by (destruct d; cbn [faces] in *; lia).
  replace (faces d * t + f =? faces d * tl + fl) with ((t =? tl) && (f =? fl)) by (destruct d; cbn [faces] in *; lia).
  destruct ((t =? tr) && (f =? fr)) eqn:C1, ((t =? tl) && (f =? fl)) eqn:C2; auto. exfalso. lia.
Qed.
Print Assumptions C72_faces_linked_partial.
Example C72_two_cubes : join_faces D3 (isolated D3 3) 0 1 0 0 1 = Some cubes2 /\ zget (c_ttt cubes2) 0 = Some 1 /\ zget (c_ttf cubes2) 6 = Some 6 /\ zget (c_ttt cubes2) 12 = Some 2.
Proof. repeat split; vm_compute; reflexivity. Qed.
(** the hypotheses hold for a connectivity with stored corners *)
Definition squares2 : conn := Eval vm_compute in got (chain2 1).
Example C72_joined_again : exists gs, stores D2 squares2 gs /\ whole D2 squares2 gs /\ allocated D2 squares2 /\ conn_is_valid D2 squares2 = Some true /\ boundary D2 squares2 1 3 /\ boundary D2 squares2 2 2 /\ c_nc squares2 = 4.
Proof.
  destruct C72_two_squares as (gs0 & c0 & S & W & A & V & B1 & B2 & _).
  destruct (C72_join_faces_2d (isolated D2 3) gs0 0 1 1 0 1 A V S W B1 B2 ltac:(discriminate) ltac:(lia)) as (c' & gs' & E & A' & V' & S' & W' & _).
  assert (E2 : join_faces D2 (isolated D2 3) 0 1 1 0 1 = Some squares2) by (vm_compute; reflexivity). rewrite E2 in E. apply some_eq in E. subst c'.
  exists gs'. split; [exact S'|]. split; [exact W'|]. split; [exact A'|]. split; [exact V'|].
  split; [unfold boundary; cbn [squares2 c_nt faces]; split; [lia|]; split; [lia|]; split; reflexivity|].
  split; [unfold boundary; cbn [squares2 c_nt faces]; split; [lia|]; split; [lia|]; split; reflexivity|]. reflexivity.
Qed.

(** A test in 3D, not a proof for all: four cubes, joined in two pairs and then the pairs, where the edges of the
    second pair run against each other and get the smaller number of the first pair. *)
Definition pairs4 : conn := Eval vm_compute in got (join_faces D3 (got (join_faces D3 (isolated D3 4) 0 1 0 0 0)) 2 3 2 0 3).
Example C72_four_cubes : exists c', join_faces D3 pairs4 1 2 3 0 2 = Some c' /\ conn_is_valid D3 c' = Some true /\ edges_agree c' /\ exists t e, 12 <= e /\ In t (c_ett pairs4) /\ In e (c_ete pairs4).
Proof.
  exists (got (join_faces D3 pairs4 1 2 3 0 2)). split; [vm_compute; reflexivity|]. split; [vm_compute; reflexivity|]. split; [apply edges_agreeb_ok; vm_compute; reflexivity|].
  assert (E : existsb (fun e => 12 <=? e) (c_ete pairs4) = true) by (vm_compute; reflexivity). apply existsb_exists in E as (e & I & L). exists 2, e. split; [lia|]. split; [|exact I].
  assert (T : existsb (fun t => t =? 2) (c_ett pairs4) = true) by (vm_compute; reflexivity). apply existsb_exists in T as (t & J & Q). apply Z.eqb_eq in Q. subst t. exact J.
Qed.
