(** * Property theorems C44, C45, C48: the connectivity

    C44: which reads of p4est_connectivity_is_valid are inside the arrays.
    C45: face connections of an accepted connectivity are symmetric.
    C48: corner neighbours of an accepted connectivity. *)

From Coq Require Import ZArith List Bool Lia ZifyBool.
From Verif Require Import Quad Spec Morton Interval QuadLemmas Neighbor PropertiesNeighbor Transform PropertiesTransform
  Partition Conn ConnLemmas ConnBounds.
Import ListNotations.
Open Scope Z_scope.

(** ** Concrete connectivities *)

(** p4est_connectivity_new_unitsquare: src/p4est_connectivity.c 1673-1701 *)
Definition unitsquare : conn :=
  mkconn 4 1 0 0 (Some (repeat 0 12)) (Some [0; 1; 2; 3]) 0 None [0; 0; 0; 0] [0; 1; 2; 3] [] [] [] [] [] [0] [] [].
(** two trees, every face of tree 0 is glued to a face of tree 1; with two identified corners
    as in p4est_connectivity_new_moebius and friends: tree corners 0 and 3 of both trees *)
Definition twisted : conn :=
  mkconn 0 2 0 1 None None 0 None [1; 1; 1; 1; 0; 0; 0; 0] [5; 0; 3; 2; 1; 4; 3; 2] [] [] [] []
         [0; 0; 0; 0; 0; 0; 0; 0] [0; 8] [0; 0; 0; 0; 1; 1; 1; 1] [0; 1; 2; 3; 0; 1; 2; 3].
(** p8est_connectivity_new_periodic: src/p8est_connectivity.c: one cube, periodic in all
    directions; three edges and one corner *)
Definition periodic3 : conn :=
  mkconn 0 1 3 1 None None 0 None [0; 0; 0; 0; 0; 0] [1; 0; 3; 2; 5; 4]
         [0; 0; 0; 0; 1; 1; 1; 1; 2; 2; 2; 2] [0; 4; 8; 12] (repeat 0 12) [0; 1; 2; 3; 4; 5; 6; 7; 8; 9; 10; 11]
         [0; 0; 0; 0; 0; 0; 0; 0] [0; 8] (repeat 0 8) [0; 1; 2; 3; 4; 5; 6; 7].
Example examples_valid :
  conn_is_valid D2 unitsquare = Some true /\ conn_is_valid D2 twisted = Some true /\ conn_is_valid D3 periodic3 = Some true.
Proof. vm_compute. auto. Qed.

(** ** C45 *)

(** For a connectivity that p4est_connectivity_is_valid accepts: a face of a tree is on the
    boundary, or p4est_find_face_transform gives a neighbour tree and a coordinate map; then
    there is a face of that tree from which p4est_find_face_transform leads back to the first
    tree, by the inverse coordinate map, in both directions. *)
Theorem C45_faces_symmetric : forall d c, conn_is_valid d c = Some true ->
  forall t f, 0 <= t < c_nt c -> 0 <= f < faces d ->
  find_face_transform d c t f = Some None \/
  exists nt ft nf ft',
    find_face_transform d c t f = Some (Some (nt, ft)) /\ 0 <= nt < c_nt c /\ 0 <= nf < faces d /\ (nt <> t \/ nf <> f) /\
    (exists o, zget (c_ttf c) (faces d * t + f) = Some (nf + faces d * o)) /\
    find_face_transform d c nt nf = Some (Some (t, ft')) /\
    (forall q, beyond d f q -> wf d (transform_face d q ft) /\ transform_face d (transform_face d q ft) ft' = q) /\
    (forall q, wf d q -> beyond d nf (transform_face d q ft) /\ transform_face d (transform_face d q ft) ft' = q).
Proof.
  intros d c V t f Ht Hf.
  destruct (conn_valid_inv _ _ V) as (ne & nc & _ & _ & _ & _ & TV).
  destruct (valid_tree_inv _ _ _ _ _ (TV t Ht)) as (FV & _).
  destruct (valid_face_true _ _ _ _ (FV f Hf)) as (nt & code & E1 & E2 & Rn & Rc & K).
  assert (Fp : 0 < faces d) by (destruct d; cbn; lia).
  replace (t * faces d + f) with (faces d * t + f) in E1, E2 by lia.
  unfold find_face_transform at 1. rewrite E1, E2.
  destruct (dim_div_mod d code ltac:(lia)) as (M & -> & ->).
  destruct K as [(-> & ->)|(NE & K1 & K2)].
  - left. rewrite Z.mod_small by lia. rewrite !Z.eqb_refl. reflexivity.
  - right. pose proof (Z.div_mod code (faces d) ltac:(lia)) as DM.
    set (nf := code mod faces d) in *. set (o := code / faces d) in *.
    assert (Ho : 0 <= o < half d).
    { unfold o. split; [apply Z.div_pos; lia|]. apply Z.div_lt_upper_bound; lia. }
    destruct ((nt =? t) && (nf =? f)) eqn:G; [lia|].
    exists nt, (expand_face_transform d f nf o), nf, (expand_face_transform d nf f o).
    split; [unfold find_face_transform; rewrite E1, E2; destruct (dim_div_mod d code ltac:(lia)) as (_ & -> & ->); fold nf o; rewrite G; reflexivity|].
    split; [auto|]. split; [auto|]. split; [auto|]. split; [exists o; f_equal; lia|]. split.
    + unfold find_face_transform. replace (faces d * nt + nf) with (nt * faces d + nf) by lia. rewrite K1, K2.
      destruct (dim_div_mod d (f + faces d * o) ltac:(lia)) as (_ & -> & ->).
      rewrite (Z.mul_comm (faces d) o), Z.mod_add, Z.div_add, (Z.mod_small f), (Z.div_small f) by lia.
      destruct ((t =? nt) && (f =? nf)) eqn:G2; [lia|]. reflexivity.
    + split; intros q Hq; destruct (C11_face_transform d f nf o q Hf M Ho) as (A & B).
      * destruct (A Hq) as (A1 & _ & A2 & _). auto.
      * destruct (B Hq) as (B1 & _ & B2). auto.
Qed.

(** crossing is injective: no two faces have the same face on the other side, and nothing
    leads to a face on the boundary *)
Theorem C45_crossing_injective : forall d c, conn_is_valid d c = Some true ->
  forall t f t' f' nt nf o o', 0 <= t < c_nt c -> 0 <= f < faces d -> 0 <= t' < c_nt c -> 0 <= f' < faces d -> 0 <= nf < faces d ->
  zget (c_ttt c) (faces d * t + f) = Some nt -> zget (c_ttf c) (faces d * t + f) = Some (nf + faces d * o) ->
  zget (c_ttt c) (faces d * t' + f') = Some nt -> zget (c_ttf c) (faces d * t' + f') = Some (nf + faces d * o') ->
  t = t' /\ f = f' /\ o = o'.
Proof.
  intros d c V t f t' f' nt nf o o' Ht Hf Ht' Hf' Hn E1 E2 E3 E4.
  destruct (conn_valid_inv _ _ V) as (ne & nc & _ & _ & _ & _ & TV).
  assert (Fp : 0 < faces d) by (destruct d; cbn; lia).
  (* the entry of the neighbour face determines where one comes from *)
  assert (K : forall t f o, 0 <= t < c_nt c -> 0 <= f < faces d -> zget (c_ttt c) (faces d * t + f) = Some nt ->
    zget (c_ttf c) (faces d * t + f) = Some (nf + faces d * o) ->
    zget (c_ttt c) (nt * faces d + nf) = Some t /\ zget (c_ttf c) (nt * faces d + nf) = Some (f + faces d * o)).
  { clear t f o Ht Hf E1 E2. intros t f o Ht Hf E1 E2.
    destruct (valid_tree_inv _ _ _ _ _ (TV t Ht)) as (FV & _).
    destruct (valid_face_true _ _ _ _ (FV f Hf)) as (nt0 & code & G1 & G2 & Rn & Rc & Kc).
    replace (t * faces d + f) with (faces d * t + f) in G1, G2 by lia.
    rewrite E1 in G1. rewrite E2 in G2. injection G1 as <-. injection G2 as <-.
    assert (M : (nf + faces d * o) mod faces d = nf) by (rewrite (Z.mul_comm (faces d) o), Z.mod_add by lia; apply Z.mod_small; auto).
    assert (Q : (nf + faces d * o) / faces d = o) by (rewrite (Z.mul_comm (faces d) o), Z.div_add by lia; rewrite Z.div_small; lia).
    rewrite M, Q in Kc. destruct Kc as [(-> & Ef)|(_ & A & B)]; [|auto].
    assert (o = 0) by (rewrite <- Ef in Hf; destruct (Z.lt_trichotomy o 0) as [?|[?|?]]; nia). subst o.
    replace (t * faces d + nf) with (faces d * t + f) by lia. rewrite E1, E2. split; [auto|]. f_equal. lia. }
  destruct (K t f o Ht Hf E1 E2) as (A1 & A2). destruct (K t' f' o' Ht' Hf' E3 E4) as (B1 & B2).
  rewrite A1 in B1. rewrite A2 in B2. injection B1 as <-. injection B2 as E. split; [auto|].
  assert (o = o').
  { assert (X : (f + faces d * o) / faces d = (f' + faces d * o') / faces d) by congruence.
    rewrite !(Z.mul_comm (faces d)), !Z.div_add, !Z.div_small in X by lia. lia. }
  subst. split; lia.
Qed.
Print Assumptions C45_faces_symmetric.
Print Assumptions C45_crossing_injective.

Example C45_example : exists ft ft',
  find_face_transform D2 twisted 0 0 = Some (Some (1, ft)) /\ find_face_transform D2 twisted 1 1 = Some (Some (0, ft')) /\
  let q := mkq (- 2 ^ 29) (2 ^ 28) 0 2 in
  transform_face D2 q ft = mkq (2 ^ 29) (2 ^ 29) 0 2 /\ transform_face D2 (transform_face D2 q ft) ft' = q.
Proof.
  exists (expand_face_transform D2 0 1 1), (expand_face_transform D2 1 0 1).
  split; [vm_compute; reflexivity|]. split; [vm_compute; reflexivity|]. split; vm_compute; reflexivity.
Qed.

(** ** C48: corner neighbours *)

(** tree corner (t', k') is met from (t, k) through a face of t *)
Definition across_face (d : dim) (c : conn) (t k t' k' : Z) : Prop :=
  exists i f code, 0 <= i < nd d /\ f = corner_faces d k i /\
    zget (c_ttt c) (faces d * t + f) = Some t' /\ zget (c_ttf c) (faces d * t + f) = Some code /\ ~ (t' = t /\ code = f) /\
    k' = face_neighbor_corner d k f (code mod faces d) (code / faces d).

Section CornerSpec.
  Variables (d : dim) (c : conn).
  Hypothesis V : conn_is_valid d c = Some true.

  Lemma distinct_spec t k l : 0 <= t < c_nt c -> 0 <= k < children d -> corner_faces_distinct d c t k = Some l ->
    forall t' k', In (t', k') l <-> (t' = t /\ k' = k) \/ across_face d c t k t' k'.
  Proof.
    intros Ht Hk. unfold corner_faces_distinct.
    destruct (conn_valid_inv _ _ V) as (ne & nc & _ & _ & _ & _ & TV).
    destruct (valid_tree_inv _ _ _ _ _ (TV t Ht)) as (FV & _).
    assert (G : forall is, (forall i, In i is -> 0 <= i < nd d) -> forall l0 l,
      fold_left (fun acc i => match acc with None => None | Some l =>
        let iface := corner_faces d k i in
        match zget (c_ttt c) (faces d * t + iface), zget (c_ttf c) (faces d * t + iface) with
        | Some nt, Some code =>
          if negb (nt =? t) || negb (code =? iface) then
            if negb (in_range code 0 (faces d * half d)) then None else
            Some (add_pair (nt, face_neighbor_corner d k iface (Z.rem code (faces d)) (Z.quot code (faces d))) l)
          else Some l
        | _, _ => None end end) is (Some l0) = Some l ->
      forall t' k', In (t', k') l <-> In (t', k') l0 \/ exists i, In i is /\ exists f code, f = corner_faces d k i /\
        zget (c_ttt c) (faces d * t + f) = Some t' /\ zget (c_ttf c) (faces d * t + f) = Some code /\ ~ (t' = t /\ code = f) /\
        k' = face_neighbor_corner d k f (code mod faces d) (code / faces d)).
    { induction is as [|i is IH]; intros Hi l0 l1; cbn [fold_left].
      - intros E t' k'. injection E as ->. split; [auto|]. intros [|(i & [] & _)]. auto.
      - cbv zeta. assert (Hf : 0 <= corner_faces d k i < faces d) by (apply corner_faces_range; auto; apply Hi; left; auto).
        destruct (face_read d c t FV _ Hf) as (nt & code & E1 & E2 & R). rewrite E1, E2, R. cbn [negb]. apply range_true in R.
        destruct (dim_div_mod d code ltac:(lia)) as (_ & -> & ->).
        destruct (negb (nt =? t) || negb (code =? corner_faces d k i)) eqn:B; intros F t' k'.
        + rewrite (IH (fun i I => Hi i (or_intror I)) _ _ F t' k'), add_pair_in. split.
          * intros [[E|I]|(j & Ij & X)]; [|auto|right; exists j; split; [right; auto|auto]].
            injection E as -> ->. right. exists i. split; [left; auto|]. exists (corner_faces d k i), code. repeat split; auto. lia.
          * intros [I|(j & [->|Ij] & X)]; [auto| |right; exists j; auto].
            destruct X as (f & code' & -> & G1 & G2 & _ & ->). rewrite E1 in G1. rewrite E2 in G2. injection G1 as <-. injection G2 as <-. auto.
        + rewrite (IH (fun i I => Hi i (or_intror I)) _ _ F t' k'). split.
          * intros [I|(j & Ij & X)]; [auto|right; exists j; split; [right; auto|auto]].
          * intros [I|(j & [->|Ij] & X)]; [auto| |right; exists j; auto].
            destruct X as (f & code' & -> & G1 & G2 & N & _). rewrite E1 in G1. rewrite E2 in G2. injection G1 as <-. injection G2 as <-. lia. }
    intros E t' k'.
    assert (Q : forall i, In i (match d with D2 => [0; 1] | D3 => [0; 1; 2] end) <-> 0 <= i < nd d)
      by (intros i; destruct d; cbn; split; intros H; intuition lia).
    rewrite (G _ (fun i => proj1 (Q i)) _ _ E t' k'). cbn [In]. unfold across_face. split.
    - intros [[F|[]]|(i & Ii & f & code & X)]; [injection F as <- <-; auto|]. right. exists i, f, code. split; [apply Q; auto|]. auto.
    - intros [(-> & ->)|(i & f & code & Ii & X)]; [auto|]. right. exists i. split; [apply Q; auto|]. eauto.
  Qed.
  (** tree corner (t', k') is met from (t, k) through an edge of t *)
  Definition across_edge (t k t' k' : Z) : Prop :=
    d = D3 /\ 0 < c_ne c /\ exists i e ae ets ne nf, 0 <= i < 3 /\ e = corner_edges k i /\
      zget (c_tte c) (12 * t + e) = Some ae /\ ae <> -1 /\ find_edge_transform c t e = Some ets /\ In (t', ne, nf) ets /\
      k' = edge_corners ne (Z.lxor nf (b2z (edge_corners e 1 =? k))).

  Lemma add_edge_corners_spec w : forall ets l l', add_edge_corners ets w l = Some l' ->
    forall t' k', In (t', k') l' <-> In (t', k') l \/ exists ne nf, In (t', ne, nf) ets /\ k' = edge_corners ne (Z.lxor nf w).
  Proof.
    induction ets as [|((nt & ne) & nf) ets IH]; intros l l'; cbn [add_edge_corners].
    - intros E t' k'. injection E as ->. split; [auto|]. intros [|(? & ? & [] & _)]. auto.
    - unfold edge_corner. destruct (_ && _ && _); [|discriminate]. intros E t' k'. rewrite (IH _ _ E t' k'), add_pair_in. cbn [In]. split.
      + intros [[F|I]|(a & b & I & ->)]; [injection F as -> ->; right; exists ne, nf; auto|auto|right; exists a, b; auto].
      + intros [I|(a & b & [F|I] & ->)]; [auto|injection F as -> -> ->; auto|right; exists a, b; auto].
  Qed.

  Lemma edges_spec t k l l' : (if is3 d then corner_edges_distinct c t k l else Some l) = Some l' -> 0 <= c_ne c ->
    forall t' k', In (t', k') l' <-> In (t', k') l \/ across_edge t k t' k'.
  Proof.
    intros E P t' k'. destruct (is3 d) eqn:D.
    - assert (D' : d = D3) by (destruct d; [discriminate|auto]). unfold corner_edges_distinct in E.
      destruct (c_ne c =? 0) eqn:E0.
      { injection E as <-. unfold across_edge. split; [auto|]. intros [|(_ & ? & _)]; [auto|lia]. }
      assert (G : forall is l0 l1,
        fold_left (fun acc i => match acc with None => None | Some l =>
          let iedge := corner_edges k i in
          match zget (c_tte c) (12 * t + iedge) with
          | None => None
          | Some ae => if ae =? -1 then Some l else
            match find_edge_transform c t iedge with
            | None => None
            | Some ets => add_edge_corners ets (b2z (edge_corners iedge 1 =? k)) l
            end end end) is (Some l0) = Some l1 ->
        In (t', k') l1 <-> In (t', k') l0 \/ exists i, In i is /\ exists e ae ets ne nf, e = corner_edges k i /\
          zget (c_tte c) (12 * t + e) = Some ae /\ ae <> -1 /\ find_edge_transform c t e = Some ets /\ In (t', ne, nf) ets /\
          k' = edge_corners ne (Z.lxor nf (b2z (edge_corners e 1 =? k)))).
      { induction is as [|i is IH]; intros l0 l1; cbn [fold_left].
        - intros F. injection F as ->. split; [auto|]. intros [|(i & [] & _)]. auto.
        - cbv zeta. destruct (zget (c_tte c) (12 * t + corner_edges k i)) as [ae|] eqn:E1.
          2:{ intros F. exfalso. revert F. clear. induction is; cbn; [discriminate|auto]. }
          destruct (ae =? -1) eqn:E2.
          + intros F. rewrite (IH _ _ F). split.
            * intros [I|(j & Ij & X)]; [auto|]. right. exists j. split; [right; auto|auto].
            * intros [I|(j & [->|Ij] & X)]; [auto| |right; exists j; auto].
              destruct X as (e & ae' & ets & ne & nf & -> & Y1 & Y2 & _). rewrite E1 in Y1. injection Y1 as <-. lia.
          + destruct (find_edge_transform c t (corner_edges k i)) as [ets|] eqn:E3.
            2:{ intros F. exfalso. revert F. clear. induction is; cbn; [discriminate|auto]. }
            destruct (add_edge_corners ets (b2z (edge_corners (corner_edges k i) 1 =? k)) l0) as [l2|] eqn:E4.
            2:{ intros F. exfalso. revert F. clear. induction is; cbn; [discriminate|auto]. }
            intros F. rewrite (IH _ _ F), (add_edge_corners_spec _ _ _ _ E4). split.
            * intros [[I|(ne & nf & I & ->)]|(j & Ij & X)]; [auto| |right; exists j; split; [right; auto|auto]].
              right. exists i. split; [left; auto|]. exists (corner_edges k i), ae, ets, ne, nf.
              repeat (split; [auto; lia|]). auto.
            * intros [I|(j & [->|Ij] & X)]; [auto| |right; exists j; auto].
              destruct X as (e & ae' & ets' & ne & nf & -> & Y1 & Y2 & Y3 & Y4 & ->). rewrite E3 in Y3. injection Y3 as <-. left. right. eauto. }
      rewrite (G _ _ _ E). unfold across_edge.
      assert (Q : forall i, In i [0; 1; 2] <-> 0 <= i < 3) by (intros i; cbn; split; intros H; intuition lia).
      split.
      + intros [I|(i & Ii & e & ae & ets & ne & nf & X)]; [auto|]. right. split; [auto|]. split; [lia|]. exists i, e, ae, ets, ne, nf.
        split; [apply Q; auto|auto].
      + intros [I|(_ & _ & i & e & ae & ets & ne & nf & Ii & X)]; [auto|]. right. exists i. split; [apply Q; auto|]. exists e, ae, ets, ne, nf. exact X.
    - injection E as <-. unfold across_edge. split; [auto|]. intros [|(-> & _)]; [auto|discriminate].
  Qed.
End CornerSpec.

(** For every corner of every tree of an accepted connectivity, p4est_find_corner_transform
    lists, once each, exactly the tree corners that carry the same corner number and are
    neither the corner itself nor met through a face (or, in 3D, an edge). *)
Theorem C48_corner_neighbors : forall d c t k ac, conn_is_valid d c = Some true ->
  0 <= t < c_nt c -> 0 <= k < children d -> 0 < c_nc c -> 0 <= c_ne c ->
  zget (c_ttc c) (children d * t + k) = Some ac -> ac <> -1 ->
  exists l, find_corner_transform d c t k = Some l /\ NoDup l /\
    forall t' k', In (t', k') l <->
      0 <= t' < c_nt c /\ 0 <= k' < children d /\ zget (c_ttc c) (children d * t' + k') = Some ac /\
      ~ (t' = t /\ k' = k) /\ ~ across_face d c t k t' k' /\ ~ across_edge d c t k t' k'.
Proof.
  intros d c t k ac V Ht Hk PC PE Eac Nac.
  destruct (conn_valid_inv _ _ V) as (ne & nc & _ & Enc & _ & CV & TV).
  destruct (valid_tree_inv _ _ _ _ _ (TV t Ht)) as (FV & _ & _ & _ & KV). specialize (KV PC).
  pose proof (KV k Hk) as VK. pose proof (valid_corner_true _ _ _ _ _ VK) as (ac' & E' & Rac & K). 
  replace (t * children d + k) with (children d * t + k) in E' by lia. rewrite Eac in E'. injection E' as <-.
  destruct K as [|(b & e & Eb & Ee & Rb & Re & CL)]; [contradiction|].
  unfold valid_corner in VK. destruct (find_corner_transform d c t k) as [l|] eqn:FC; [|discriminate]. clear VK.
  exists l. split; [reflexivity|].
  unfold find_corner_transform in FC. destruct (c_nc c =? 0) eqn:E0; [lia|]. rewrite Eac in FC.
  destruct (ac =? -1) eqn:E1; [lia|]. rewrite Eb, Ee in FC.
  destruct (corner_faces_distinct d c t k) as [dis0|] eqn:ED; [|discriminate].
  destruct (if is3 d then corner_edges_distinct c t k dis0 else Some dis0) as [dis|] eqn:EE; [|discriminate].
  destruct (zslice (c_ctt c) b (Z.to_nat (e - b))) as [ts|] eqn:Z1; [|discriminate].
  destruct (zslice (c_ctc c) b (Z.to_nat (e - b))) as [cs|] eqn:Z2; [|discriminate]. injection FC as <-.
  pose proof (slice_pairs _ _ _ _ _ _ Z1 Z2) as SP.
  (* every entry of the list carries the number ac, and every tree corner with that number is there once *)
  assert (Ent : forall j, b <= j < b + Z.of_nat (Z.to_nat (e - b)) -> exists t' k', zget (c_ctt c) j = Some t' /\ zget (c_ctc c) j = Some k' /\
     0 <= t' < c_nt c /\ 0 <= k' < children d /\ zget (c_ttc c) (children d * t' + k') = Some ac).
  { intros j Hj. destruct (valid_pair_inv _ _ _ _ _ (CV j ltac:(lia))) as (t' & k' & G1 & G2 & R1 & R2). exists t', k'.
    split; [exact G1|]. split; [exact G2|]. split; [exact R1|]. split; [exact R2|].
    destruct (corner_loop_true _ _ _ _ _ _ _ _ _ CL) as (A & _). destruct (A j Hj) as (t1 & k1 & X1 & X2 & X3).
    rewrite G1 in X1. rewrite G2 in X2. injection X1 as <-. injection X2 as <-. 
    replace (children d * t' + k') with (t' * children d + k') by lia. auto. }
  assert (Uni : forall t' k', 0 <= t' < c_nt c -> 0 <= k' < children d -> zget (c_ttc c) (children d * t' + k') = Some ac ->
    exists j, b <= j < b + Z.of_nat (Z.to_nat (e - b)) /\ zget (c_ctt c) j = Some t' /\ zget (c_ctc c) j = Some k' /\
      forall j', b <= j' < b + Z.of_nat (Z.to_nat (e - b)) -> zget (c_ctt c) j' = Some t' -> zget (c_ctc c) j' = Some k' -> j' = j).
  { intros t' k' Ht' Hk' E. destruct (valid_tree_inv _ _ _ _ _ (TV t' Ht')) as (_ & _ & _ & _ & KV'). specialize (KV' PC k' Hk').
    pose proof (valid_corner_true _ _ _ _ _ KV') as (ac2 & E2 & _ & K2). 
    replace (t' * children d + k') with (children d * t' + k') in E2 by lia. rewrite E in E2. injection E2 as <-.
    destruct K2 as [|(b2 & e2 & Eb2 & Ee2 & _ & _ & CL2)]; [contradiction|]. rewrite Eb in Eb2. rewrite Ee in Ee2.
    injection Eb2 as <-. injection Ee2 as <-. destruct (corner_loop_true _ _ _ _ _ _ _ _ _ CL2) as (_ & A & _ & U).
    destruct (A eq_refl) as [|(j & Hj & X1 & X2)]; [discriminate|]. exists j. repeat (split; [auto|]).
    destruct (U j Hj X1 X2) as (_ & U'). auto. }
  destruct (zslice_nth _ _ _ _ Z1) as (L1 & N1). destruct (zslice_nth _ _ _ _ Z2) as (L2 & N2).
  assert (ND : NoDup (combine ts cs)).
  { apply NoDup_nth_error. intros i j Hi E. rewrite combine_length in Hi.
    assert (Hj : (j < length (combine ts cs))%nat) by (apply nth_error_Some; rewrite <- E; apply nth_error_Some; rewrite combine_length; lia).
    rewrite combine_length in Hj.
    assert (NC : forall i x y, nth_error (combine ts cs) i = Some (x, y) -> nth_error ts i = Some x /\ nth_error cs i = Some y).
    { clear. revert cs. induction ts as [|a ts IH]; intros [|a' cs] [|i] x y; cbn; try discriminate.
      - intros H. injection H as -> ->. auto.
      - apply IH. }
    destruct (nth_error (combine ts cs) i) as [(x, y)|] eqn:Ei; [|apply nth_error_None in Ei; rewrite combine_length in Ei; lia].
    symmetry in E. destruct (NC _ _ _ Ei) as (A1 & A2). destruct (NC _ _ _ E) as (B1 & B2).
    rewrite N1 in A1, B1 by lia. rewrite N2 in A2, B2 by lia.
    destruct (Ent (b + Z.of_nat i) ltac:(lia)) as (t1 & k1 & X1 & X2 & R1 & R2 & X3).
    rewrite A1 in X1. rewrite A2 in X2. injection X1 as <-. injection X2 as <-.
    destruct (Uni x y R1 R2 X3) as (j0 & _ & _ & _ & U).
    pose proof (U (b + Z.of_nat i) ltac:(lia) A1 A2). pose proof (U (b + Z.of_nat j) ltac:(lia) B1 B2). lia. }
  split; [apply NoDup_filter; auto|].
  intros t' k'. rewrite filter_In, SP.
  assert (MD : negb (mem_pair (t', k') dis) = true <-> ~ (t' = t /\ k' = k) /\ ~ across_face d c t k t' k' /\ ~ across_edge d c t k t' k').
  { rewrite negb_true_iff. rewrite <- not_true_iff_false, mem_pair_true, (edges_spec d c V t k dis0 dis EE PE), (distinct_spec d c V t k dis0 Ht Hk ED t' k'). tauto. }
  rewrite MD. split.
  - intros ((j & Hj & X1 & X2) & N). destruct (Ent j Hj) as (t1 & k1 & Y1 & Y2 & R1 & R2 & Y3).
    rewrite X1 in Y1. rewrite X2 in Y2. injection Y1 as <-. injection Y2 as <-. tauto.
  - intros (R1 & R2 & E & N). split; [|exact N]. destruct (Uni t' k' R1 R2 E) as (j & Hj & X1 & X2 & _). eauto.
Qed.
Print Assumptions C48_corner_neighbors.

Example C48_example :
  zget (c_ttc twisted) (4 * 0 + 0) = Some 0 /\ find_corner_transform D2 twisted 0 0 = Some [(0, 1); (0, 2); (0, 3); (1, 0); (1, 1)].
Proof. vm_compute. auto. Qed.

Example C48_example_3d :
  zget (c_ttc periodic3) (8 * 0 + 0) = Some 0 /\ find_corner_transform D3 periodic3 0 0 = Some [(0, 7)] /\
  find_edge_transform periodic3 0 0 = Some [(0, 3, 0)].
Proof. vm_compute. auto. Qed.

(** ** C49: edge neighbours *)

(** edge e' of tree t' is met from edge e of t through a face of t, and end k of the edge e
    becomes end (k xor fl) of the edge e' *)
Definition edge_across_face (c : conn) (t e t' e' fl : Z) : Prop :=
  exists i f code, 0 <= i < 2 /\ f = edge_faces e i /\
    zget (c_ttt c) (6 * t + f) = Some t' /\ zget (c_ttf c) (6 * t + f) = Some code /\ ~ (t' = t /\ code = f) /\
    0 <= e' < 12 /\ (fl = 0 \/ fl = 1) /\
    forall k, k = 0 \/ k = 1 -> edge_corners e' (Z.lxor k fl) = face_neighbor_corner D3 (edge_corners e k) f (code mod 6) (code / 6).

Definition r (n : Z) : list Z := map Z.of_nat (List.seq 0 (Z.to_nat n)).
Lemma r_in n i : 0 <= i < n -> In i (r n).
Proof. intros H. unfold r. apply in_map_iff. exists (Z.to_nat i). split; [lia|]. apply in_seq. lia. Qed.
Definition edge_step (e f nf o : Z) : Z * Z :=
  let fc k := face_neighbor_face_corner D3 (edge_face_corners e f k) f nf o in
  let n0 := face_corners D3 nf (fc 0) in
  let n1 := face_corners D3 nf (fc 1) in
  let nedge := child_corner_edges n0 n1 in
  (nedge, b2z (edge_corners nedge 1 =? n0)).
Definition ends (e f nf o e' fl : Z) : bool :=
  forallb (fun k => edge_corners e' (Z.lxor k fl) =? face_neighbor_corner D3 (edge_corners e k) f nf o) [0; 1].
Lemma edge_step_table :
  forallb (fun e => forallb (fun i => forallb (fun nf => forallb (fun o =>
    let (e1, f1) := edge_step e (edge_faces e i) nf o in
    (0 <=? e1) && (e1 <? 12) && ((f1 =? 0) || (f1 =? 1)) &&
    forallb (fun e' => forallb (fun fl => Bool.eqb (ends e (edge_faces e i) nf o e' fl) ((e' =? e1) && (fl =? f1))) (r 2)) (r 12))
  (r 4)) (r 6)) (r 2)) (r 12) = true.
Proof. vm_compute. reflexivity. Qed.
Lemma edge_step_spec e i nf o e' fl : 0 <= e < 12 -> 0 <= i < 2 -> 0 <= nf < 6 -> 0 <= o < 4 ->
  edge_step e (edge_faces e i) nf o = (e', fl) <->
  0 <= e' < 12 /\ (fl = 0 \/ fl = 1) /\
  forall k, k = 0 \/ k = 1 -> edge_corners e' (Z.lxor k fl) = face_neighbor_corner D3 (edge_corners e k) (edge_faces e i) nf o.
Proof.
  intros He Hi Hn Ho. pose proof edge_step_table as T.
  rewrite forallb_forall in T. specialize (T e (r_in _ _ He)). rewrite forallb_forall in T. specialize (T i (r_in _ _ Hi)).
  rewrite forallb_forall in T. specialize (T nf (r_in _ _ Hn)). rewrite forallb_forall in T. specialize (T o (r_in _ _ Ho)).
  cbv beta in T. destruct (edge_step e (edge_faces e i) nf o) as (e1 & f1). apply andb_true_iff in T as (T1 & T2).
  rewrite forallb_forall in T2.
  assert (X : forall a b, 0 <= a < 12 -> 0 <= b < 2 -> ends e (edge_faces e i) nf o a b = true <-> a = e1 /\ b = f1).
  { intros a b Ha Hb. specialize (T2 a (r_in _ _ Ha)). rewrite forallb_forall in T2. specialize (T2 b (r_in _ _ Hb)).
    apply eqb_prop in T2. rewrite T2. lia. }
  assert (Y : forall a b, ends e (edge_faces e i) nf o a b = true <->
    forall k, k = 0 \/ k = 1 -> edge_corners a (Z.lxor k b) = face_neighbor_corner D3 (edge_corners e k) (edge_faces e i) nf o).
  { intros a b. unfold ends. rewrite forallb_forall. split.
    - intros H k Hk. assert (I : In k [0; 1]) by (cbn; lia). specialize (H k I). lia.
    - intros H k Hk. assert (I : k = 0 \/ k = 1) by (cbn in Hk; lia). specialize (H k I). lia. }
  split.
  - intros E. injection E as <- <-. split; [lia|]. split; [lia|]. apply Y. apply X; lia.
  - intros (R1 & R2 & K). apply Y in K. apply X in K as (-> & ->); [auto|auto|lia].
Qed.

Section EdgeSpec.
  Variable c : conn.
  Hypothesis V : conn_is_valid D3 c = Some true.

  Lemma edge_distinct_spec t e l : 0 <= t < c_nt c -> 0 <= e < 12 -> edge_distinct c t e = Some l ->
    forall t' e' fl, In (t', e', fl) l <-> (t' = t /\ e' = e /\ fl = 0) \/ edge_across_face c t e t' e' fl.
  Proof.
    intros Ht He. unfold edge_distinct.
    destruct (conn_valid_inv _ _ V) as (ne & nc & _ & _ & _ & _ & TV).
    destruct (valid_tree_inv _ _ _ _ _ (TV t Ht)) as (FV & _).
    assert (G : forall is, (forall i, In i is -> 0 <= i < 2) -> forall l0 l,
      fold_left (fun acc i => match acc with None => None | Some l =>
        let face := edge_faces e i in
        match zget (c_ttt c) (6 * t + face), zget (c_ttf c) (6 * t + face) with
        | Some nt, Some code =>
          if negb (nt =? t) || negb (code =? face) then
            if negb (in_range code 0 24) then None else
            let o := Z.quot code 6 in
            let nface := Z.rem code 6 in
            let fc k := face_neighbor_face_corner D3 (edge_face_corners e face k) face nface o in
            let n0 := face_corners D3 nface (fc 0) in
            let n1 := face_corners D3 nface (fc 1) in
            let nedge := child_corner_edges n0 n1 in
            let eorient := b2z (edge_corners nedge 1 =? n0) in
            Some (add_triple (nt, nedge, eorient) l)
          else Some l
        | _, _ => None end end) is (Some l0) = Some l ->
      forall t' e' fl, In (t', e', fl) l <-> In (t', e', fl) l0 \/ exists i, In i is /\ exists f code, f = edge_faces e i /\
        zget (c_ttt c) (6 * t + f) = Some t' /\ zget (c_ttf c) (6 * t + f) = Some code /\ ~ (t' = t /\ code = f) /\
        edge_step e f (code mod 6) (code / 6) = (e', fl)).
    { induction is as [|i is IH]; intros Hi l0 l1; cbn [fold_left].
      - intros E t' e' fl. injection E as ->. split; [auto|]. intros [|(i & [] & _)]. auto.
      - cbv zeta. assert (Hf : 0 <= edge_faces e i < faces D3) by (apply edge_faces_range; auto; apply Hi; left; auto).
        destruct (face_read D3 c t FV _ Hf) as (nt & code & E1 & E2 & R). cbn [faces half] in E1, E2, R. change (6 * 4) with 24 in R.
        rewrite E1, E2, R. cbn [negb]. apply range_true in R.
        destruct (dim_div_mod D3 code ltac:(cbn; lia)) as (_ & M & Q). cbn [faces] in M, Q. rewrite M, Q.
        destruct (negb (nt =? t) || negb (code =? edge_faces e i)) eqn:B; intros F t' e' fl.
        + rewrite (IH (fun i I => Hi i (or_intror I)) _ _ F t' e' fl), add_triple_in. split.
          * intros [[E|I]|(j & Ij & X)]; [|auto|right; exists j; split; [right; auto|auto]].
            injection E as -> -> ->. right. exists i. split; [left; auto|]. exists (edge_faces e i), code.
            split; [auto|]. split; [auto|]. split; [auto|]. split; [lia|]. reflexivity.
          * intros [I|(j & [->|Ij] & X)]; [auto| |right; exists j; auto].
            destruct X as (f & code' & -> & G1 & G2 & _ & G3). rewrite E1 in G1. rewrite E2 in G2. injection G1 as <-. injection G2 as <-.
            left. left. unfold edge_step in G3. injection G3 as <- <-. reflexivity.
        + rewrite (IH (fun i I => Hi i (or_intror I)) _ _ F t' e' fl). split.
          * intros [I|(j & Ij & X)]; [auto|right; exists j; split; [right; auto|auto]].
          * intros [I|(j & [->|Ij] & X)]; [auto| |right; exists j; auto].
            destruct X as (f & code' & -> & G1 & G2 & N & _). rewrite E1 in G1. rewrite E2 in G2. injection G1 as <-. injection G2 as <-. lia. }
    intros E t' e' fl.
    assert (Q : forall i, In i [0; 1] <-> 0 <= i < 2) by (intros i; cbn; split; intros H; intuition lia).
    rewrite (G _ (fun i => proj1 (Q i)) _ _ E t' e' fl). cbn [In]. unfold edge_across_face.
    assert (CR : forall i code, 0 <= i < 2 -> zget (c_ttf c) (6 * t + edge_faces e i) = Some code -> 0 <= code mod 6 < 6 /\ 0 <= code / 6 < 4).
    { intros i code Hi EC. assert (Hf : 0 <= edge_faces e i < faces D3) by (apply edge_faces_range; auto).
      destruct (face_read D3 c t FV _ Hf) as (nt & code' & _ & E2 & R). cbn [faces half] in E2, R. rewrite EC in E2. injection E2 as <-.
      apply range_true in R. split; [apply Z.mod_pos_bound; lia|]. split; [apply Z.div_pos; lia|apply Z.div_lt_upper_bound; lia]. }
    split.
    - intros [[F|[]]|(i & Ii & f & code & -> & E1 & E2 & N & ES)]; [injection F as <- <- <-; auto|]. right. apply Q in Ii.
      destruct (CR i code Ii E2) as (C1 & C2). exists i, (edge_faces e i), code.
      apply (edge_step_spec e i _ _ _ _ He Ii C1 C2) in ES. tauto.
    - intros [(-> & -> & ->)|(i & f & code & Ii & -> & E1 & E2 & N & ES)]; [auto|]. right. exists i. split; [apply Q; auto|].
      destruct (CR i code Ii E2) as (C1 & C2). exists (edge_faces e i), code.
      apply (edge_step_spec e i _ _ _ _ He Ii C1 C2) in ES. auto.
  Qed.

  Lemma edge_loop_entries t e ae : forall n i flip rr, edge_loop c t e ae n i flip = Some (Some rr) ->
    forall j, i <= j < i + Z.of_nat n -> exists nt code, zget (c_ett c) j = Some nt /\ zget (c_ete c) j = Some code /\
      zget (c_tte c) (nt * 12 + Z.rem code 12) = Some ae.
  Proof.
    induction n as [|n IH]; intros i flip rr; cbn [edge_loop]; [intros _ j Hj; lia|].
    destruct (zget (c_ett c) i) as [nt|] eqn:E1; [|discriminate]. destruct (zget (c_ete c) i) as [code|] eqn:E2; [|discriminate].
    destruct (zget (c_tte c) (nt * 12 + Z.rem code 12)) as [x|] eqn:E3; [|discriminate].
    destruct (negb (x =? ae)) eqn:E4; [discriminate|]. intros F j Hj.
    assert (x = ae) by lia. subst x.
    destruct (Z.eq_dec j i) as [->|N]; [exists nt, code; auto|].
    destruct ((nt =? t) && (Z.rem code 12 =? e)).
    - destruct (negb (flip =? -1) && (Z.quot code 12 =? flip)); [discriminate|]. apply (IH _ _ _ F j). lia.
    - apply (IH _ _ _ F j). lia.
  Qed.
End EdgeSpec.

Lemma find_self_spec t e : forall l i, (exists y, In (t, y) l /\ Z.rem y 12 = e) ->
  exists k re, nth_error l k = Some (t, re) /\ Z.rem re 12 = e /\ find_self t e l i = (i + Z.of_nat k, Z.quot re 12).
Proof.
  induction l as [|(nt & re) l IH]; intros i (y & I & E); [destruct I|]. cbn [find_self].
  destruct ((Z.rem re 12 =? e) && (nt =? t)) eqn:G.
  - exists 0%nat, re. cbn [nth_error]. assert (nt = t) by lia. subst nt. split; [auto|]. split; [lia|]. f_equal. lia.
  - destruct I as [F|I]; [injection F as -> ->; lia|].
    destruct (IH (i + 1) ltac:(eauto)) as (k & re' & A & B & ->). exists (S k), re'. split; [exact A|]. split; [auto|]. f_equal. lia.
Qed.
Lemma edge_collect_spec dis ie fl : forall l i t' e' nf, In (t', e', nf) (edge_collect dis ie fl l i) <->
  exists k re, nth_error l k = Some (t', re) /\ i + Z.of_nat k <> ie /\ e' = Z.rem re 12 /\ nf = Z.lxor (Z.quot re 12) fl /\ ~ In (t', e', nf) dis.
Proof.
  induction l as [|(nt & re) l IH]; intros i t' e' nf; cbn [edge_collect].
  - split; [intros []|]. intros (k & re & E & _). destruct k; discriminate.
  - cbv zeta.
    assert (ST : (exists k re, nth_error l k = Some (t', re) /\ i + 1 + Z.of_nat k <> ie /\ e' = Z.rem re 12 /\
        nf = Z.lxor (Z.quot re 12) fl /\ ~ In (t', e', nf) dis) ->
      exists k re0, nth_error ((nt, re) :: l) k = Some (t', re0) /\ i + Z.of_nat k <> ie /\ e' = Z.rem re0 12 /\
        nf = Z.lxor (Z.quot re0 12) fl /\ ~ In (t', e', nf) dis).
    { intros (k & re0 & A & B & Q). exists (S k), re0. split; [exact A|]. split; [lia|exact Q]. }
    assert (UN : forall k re0, nth_error ((nt, re) :: l) k = Some (t', re0) -> i + Z.of_nat k <> ie ->
      (k = 0%nat /\ nt = t' /\ re = re0) \/ exists k', k = S k' /\ nth_error l k' = Some (t', re0) /\ i + 1 + Z.of_nat k' <> ie).
    { intros [|k] re0 A B; cbn [nth_error] in A; [left; injection A as -> ->; auto|]. right. exists k. split; [auto|]. split; [auto|lia]. }
    destruct (i =? ie) eqn:E1.
    + rewrite IH. split; [exact ST|]. intros (k & re0 & A & B & Q).
      destruct (UN k re0 A B) as [(-> & _)|(k' & -> & A' & B')]; [lia|]. exists k', re0. auto.
    + destruct (mem_triple (nt, Z.rem re 12, Z.lxor (Z.quot re 12) fl) dis) eqn:E2.
      * rewrite IH. split; [exact ST|]. intros (k & re0 & A & B & -> & -> & Q).
        destruct (UN k re0 A B) as [(-> & -> & ->)|(k' & -> & A' & B')]; [apply mem_triple_true in E2; contradiction|]. exists k', re0. auto 6.
      * cbn [In]. rewrite IH. split.
        -- intros [F|X]; [|auto]. injection F as -> <- <-. exists 0%nat, re. split; [reflexivity|]. split; [lia|]. split; [auto|]. split; [auto|].
           intros X. apply mem_triple_true in X. congruence.
        -- intros (k & re0 & A & B & -> & -> & Q).
           destruct (UN k re0 A B) as [(-> & -> & ->)|(k' & -> & A' & B')]; [auto|]. right. exists k', re0. auto 6.
Qed.

(** an edge that has been accepted *)
Lemma valid_edge_true c num t e : valid_edge c num t e = Some true -> exists ae, zget (c_tte c) (t * 12 + e) = Some ae /\ -1 <= ae < c_ne c /\
  (ae = -1 \/ exists b e' flip, zget (c_eoff c) ae = Some b /\ zget (c_eoff c) (ae + 1) = Some e' /\ 0 <= b < num /\ 0 <= e' <= num /\
     edge_loop c t e ae (Z.to_nat (e' - b)) b (-1) = Some (Some flip) /\ flip <> -1).
Proof.
  unfold valid_edge. destruct (find_edge_transform c t e); [|discriminate]. intros V.
  apply with_true in V as (ae & E & V). exists ae. split; [auto|]. apply andthen_true in V as (R & V).
  apply some_true in R. apply range_true in R. split; [lia|]. destruct (ae =? -1) eqn:E1; [left; lia|]. right.
  apply with_true in V as (b & Eb & V). apply with_true in V as (e' & Ee & V). apply andthen_true in V as (R2 & V).
  apply some_true in R2. apply andb_true_iff in R2 as (R2 & R3). apply range_true in R2. apply range_true in R3.
  destruct (edge_loop c t e ae (Z.to_nat (e' - b)) b (-1)) as [[flip|]|] eqn:EL; try discriminate.
  exists b, e', flip. repeat (split; [auto; lia|]). apply some_true in V. lia.
Qed.

(** For every edge of every tree of an accepted connectivity, p8est_find_edge_transform lists
    only tree edges that carry the same edge number and that are not met through a face with
    this orientation; the orientation is that of the listed edge relative to the edge itself
    (fl = 1 if their entries in edge_to_edge have different flips); and every tree edge with this number is listed, or it is the edge
    itself, or it is met through a face. *)
Theorem C49_edge_neighbors : forall c t e ae, conn_is_valid D3 c = Some true ->
  0 <= t < c_nt c -> 0 <= e < 12 -> 0 < c_ne c -> zget (c_tte c) (12 * t + e) = Some ae -> ae <> -1 ->
  exists ets, find_edge_transform c t e = Some ets /\
    (forall t' e' fl, In (t', e', fl) ets ->
       0 <= t' < c_nt c /\ 0 <= e' < 12 /\ (fl = 0 \/ fl = 1) /\ zget (c_tte c) (12 * t' + e') = Some ae /\
       ~ (t' = t /\ e' = e /\ fl = 0) /\ ~ edge_across_face c t e t' e' fl /\
       exists b e0 j0 j f0 f, zget (c_eoff c) ae = Some b /\ zget (c_eoff c) (ae + 1) = Some e0 /\ b <= j0 < e0 /\ b <= j < e0 /\ j <> j0 /\
         zget (c_ett c) j0 = Some t /\ zget (c_ete c) j0 = Some (e + 12 * f0) /\
         zget (c_ett c) j = Some t' /\ zget (c_ete c) j = Some (e' + 12 * f) /\ (f0 = 0 \/ f0 = 1) /\ (f = 0 \/ f = 1) /\
         (fl = 0 <-> f = f0)) /\
    (forall t' e', 0 <= t' < c_nt c -> 0 <= e' < 12 -> zget (c_tte c) (12 * t' + e') = Some ae ->
       (exists fl, In (t', e', fl) ets) \/ (t' = t /\ e' = e) \/ exists fl, edge_across_face c t e t' e' fl).
Proof.
  intros c t e ae V Ht He PE Eae Nae.
  destruct (conn_valid_inv _ _ V) as (ne & nc & Ene & _ & EV & _ & TV). specialize (EV eq_refl).
  destruct (valid_tree_inv _ _ _ _ _ (TV t Ht)) as (FV & _ & KV & _). specialize (KV eq_refl PE).
  pose proof (KV e He) as VK. destruct (valid_edge_true _ _ _ _ VK) as (ae' & E' & Rae & K).
  replace (t * 12 + e) with (12 * t + e) in E' by lia. rewrite Eae in E'. injection E' as <-.
  destruct K as [|(b & e0 & flip & Eb & Ee & Rb & Re & EL & NF)]; [contradiction|].
  unfold valid_edge in VK. destruct (find_edge_transform c t e) as [ets|] eqn:FE; [|discriminate]. clear VK.
  exists ets. split; [reflexivity|].
  unfold find_edge_transform in FE. destruct (c_ne c =? 0) eqn:E0; [lia|]. rewrite Eae in FE.
  destruct (ae =? -1) eqn:E1; [lia|]. rewrite Eb, Ee in FE.
  destruct (edge_distinct c t e) as [dis|] eqn:ED; [|discriminate].
  destruct (zslice (c_ett c) b (Z.to_nat (e0 - b))) as [ts|] eqn:Z1; [|discriminate].
  destruct (zslice (c_ete c) b (Z.to_nat (e0 - b))) as [es|] eqn:Z2; [|discriminate].
  pose proof (slice_pairs _ _ _ _ _ _ Z1 Z2) as SP.
  pose proof (edge_loop_entries c t e ae _ _ _ _ EL) as ENT.
  assert (PR : forall j nt code, b <= j < b + Z.of_nat (Z.to_nat (e0 - b)) -> zget (c_ett c) j = Some nt -> zget (c_ete c) j = Some code ->
     0 <= nt < c_nt c /\ 0 <= code < 24 /\ 0 <= Z.rem code 12 < 12 /\ (Z.quot code 12 = 0 \/ Z.quot code 12 = 1)).
  { intros j nt code Hj X1 X2. destruct (valid_pair_inv _ _ _ _ _ (EV j ltac:(lia))) as (t1 & k1 & G1 & G2 & R1 & R2).
    rewrite X1 in G1. rewrite X2 in G2. injection G1 as <-. injection G2 as <-. split; [exact R1|]. split; [exact R2|].
    split; [apply Z.rem_bound_pos; lia|]. rewrite Z.quot_div_nonneg by lia.
    assert (0 <= code / 12 < 2) by (split; [apply Z.div_pos; lia|apply Z.div_lt_upper_bound; lia]). lia. }
  (* entry of an edge in the list *)
  assert (SF : forall t' e', 0 <= t' < c_nt c -> 0 <= e' < 12 -> zget (c_tte c) (12 * t' + e') = Some ae ->
    exists y, In (t', y) (combine ts es) /\ Z.rem y 12 = e').
  { intros t' e' Ht' He' E. destruct (valid_tree_inv _ _ _ _ _ (TV t' Ht')) as (_ & _ & KV' & _). specialize (KV' eq_refl PE e' He').
    destruct (valid_edge_true _ _ _ _ KV') as (a2 & E2 & _ & K2).
    replace (t' * 12 + e') with (12 * t' + e') in E2 by lia. rewrite E in E2. injection E2 as <-.
    destruct K2 as [|(b2 & e2 & f2 & Eb2 & Ee2 & _ & _ & EL2 & NF2)]; [contradiction|]. rewrite Eb in Eb2. rewrite Ee in Ee2.
    injection Eb2 as <-. injection Ee2 as <-.
    destruct (edge_loop_self c ne t' e' ae (Z.to_nat (e0 - b)) b (-1) f2 ltac:(lia) ltac:(lia) EL2) as [|(j & code & Hj & X1 & X2 & X3)]; [contradiction|].
    exists code. split; [|auto]. apply SP. eauto. }
  destruct (find_self_spec t e (combine ts es) 0 (SF t e Ht He Eae)) as (k0 & re0 & N0 & R0 & FS). rewrite FS in FE. injection FE as <-.
  assert (Fl : Z.quot re0 12 = 0 \/ Z.quot re0 12 = 1).
  { apply nth_error_In in N0. apply SP in N0 as (j & Hj & X1 & X2). destruct (PR j _ _ Hj X1 X2) as (_ & _ & _ & ?). auto. }
  split.
  - intros t' e' fl I. apply edge_collect_spec in I as (k & re & Nk & Ne & -> & -> & ND).
    pose proof (nth_error_In _ _ Nk) as I. apply SP in I as (j & Hj & X1 & X2).
    destruct (PR j _ _ Hj X1 X2) as (P1 & P2 & P3 & P4). split; [exact P1|]. split; [exact P3|].
    split; [destruct P4 as [-> | ->], Fl as [-> | ->]; cbn; auto|].
    split.
    { destruct (ENT j Hj) as (nt & code & Y1 & Y2 & Y3). rewrite X1 in Y1. rewrite X2 in Y2. injection Y1 as <-. injection Y2 as <-.
      replace (12 * t' + Z.rem re 12) with (t' * 12 + Z.rem re 12) by lia. exact Y3. }
    rewrite (edge_distinct_spec c V t e dis Ht He ED) in ND. split; [tauto|]. split; [tauto|].
    destruct (zslice_nth _ _ _ _ Z1) as (L1 & N1). destruct (zslice_nth _ _ _ _ Z2) as (L2 & N2).
    assert (NC : forall k x y, nth_error (combine ts es) k = Some (x, y) -> b <= b + Z.of_nat k < e0 /\
      zget (c_ett c) (b + Z.of_nat k) = Some x /\ zget (c_ete c) (b + Z.of_nat k) = Some (Z.rem y 12 + 12 * Z.quot y 12)).
    { intros k' x y Nn.
      assert (Hk' : (k' < length (combine ts es))%nat) by (apply nth_error_Some; congruence). rewrite combine_length in Hk'.
      assert (NC' : nth_error ts k' = Some x /\ nth_error es k' = Some y).
      { revert Nn. clear. revert es k'. induction ts as [|a ts IH]; intros [|a' es] [|k]; cbn; try discriminate.
        - intros H. injection H as -> ->. auto.
        - apply IH. }
      destruct NC' as (A1 & A2). rewrite N1 in A1 by lia. rewrite N2 in A2 by lia. split; [lia|]. split; [exact A1|]. rewrite A2. f_equal.
      pose proof (Z.quot_rem' y 12). lia. }
    destruct (NC _ _ _ N0) as (K1 & K2 & K3). destruct (NC _ _ _ Nk) as (K4 & K5 & K6). rewrite R0 in K3.
    exists b, e0, (b + Z.of_nat k0), (b + Z.of_nat k), (Z.quot re0 12), (Z.quot re 12).
    split; [exact Eb|]. split; [exact Ee|]. split; [exact K1|]. split; [exact K4|]. split; [lia|]. split; [exact K2|]. split; [exact K3|].
    split; [exact K5|]. split; [exact K6|]. split; [exact Fl|]. split; [exact P4|].
    destruct P4 as [-> | ->], Fl as [-> | ->]; cbn; split; (reflexivity || discriminate).
  - intros t' e' Ht' He' E. destruct (SF t' e' Ht' He' E) as (y & I & M).
    apply In_nth_error in I as (k & Nk).
    destruct (Nat.eq_dec k k0) as [->|Nk0].
    { rewrite N0 in Nk. injection Nk as <- <-. right. left. split; [reflexivity|congruence]. }
    destruct (mem_triple (t', e', Z.lxor (Z.quot y 12) (Z.quot re0 12)) dis) eqn:MT.
    + apply mem_triple_true in MT. apply (edge_distinct_spec c V t e dis Ht He ED) in MT as [(-> & -> & _)|A]; [auto|]. right. right. eauto.
    + left. exists (Z.lxor (Z.quot y 12) (Z.quot re0 12)). apply edge_collect_spec. exists k, y. split; [auto|]. split; [lia|].
      split; [auto|]. split; [auto|]. intros X. apply mem_triple_true in X. congruence.
Qed.
Print Assumptions C49_edge_neighbors.

Example C49_example : zget (c_tte periodic3) (12 * 0 + 5) = Some 1 /\ find_edge_transform periodic3 0 5 = Some [(0, 6, 0)].
Proof. vm_compute. auto. Qed.

(** p8est_connectivity_is_valid tells that an edge is in its list twice with the same flip only
    from two consecutive occurrences; so "every neighbour edge is listed once" is not true of
    every accepted connectivity. *)
Definition repeated_edge : conn :=
  mkconn 0 1 1 0 None None 0 None [0; 0; 0; 0; 0; 0] [0; 1; 2; 3; 4; 5]
         [0; -1; -1; -1; -1; -1; -1; -1; -1; -1; -1; -1] [0; 4] [0; 0; 0; 0] [0; 12; 0; 12] [] [0] [] [].
Theorem C49_listed_once_refuted : exists c t e ets,
  allocated D3 c /\ conn_is_valid D3 c = Some true /\ 0 <= t < c_nt c /\ 0 <= e < 12 /\ find_edge_transform c t e = Some ets /\ ~ NoDup ets.
Proof.
  exists repeated_edge, 0, 0, [(0, 0, 1); (0, 0, 1)]. split.
  { unfold allocated. cbn. repeat split; try lia. }
  split; [vm_compute; reflexivity|]. split; [vm_compute; split; congruence|]. split; [vm_compute; split; congruence|].
  split; [vm_compute; reflexivity|]. intros N. inversion N as [|x l A B]. subst. apply A. left. reflexivity.
Qed.
Print Assumptions C49_listed_once_refuted.

(** ** C44 *)

(** On arrays of the sizes that p4est_connectivity_new allocates, p4est_connectivity_is_valid
    reads only inside the arrays if: tree_to_corner (and tree_to_edge in 3D) has entries
    between -1 and the number of corners (edges), the first offset is not negative, and it is
    0 when there are no corners (edges).  Without these conditions it is not so: see below. *)
Theorem C44_in_bounds_partial : forall d c, allocated d c ->
  indices_ok (c_nc c) (c_ttc c) (c_coff c) -> (d = D3 -> indices_ok (c_ne c) (c_tte c) (c_eoff c)) ->
  exists b, conn_is_valid d c = Some b.
Proof.
  intros d c AL C E. pose proof (conn_in_bounds d c AL C E). destruct (conn_is_valid d c) as [b|]; [eauto|congruence].
Qed.
Print Assumptions C44_in_bounds_partial.
Example C44_example : allocated D3 periodic3 /\ indices_ok 1 (c_ttc periodic3) (c_coff periodic3) /\ indices_ok 3 (c_tte periodic3) (c_eoff periodic3).
Proof.
  split; [unfold allocated; cbn; repeat split; lia|]. unfold indices_ok. cbn.
  split; (split; [discriminate|]; split; [intuition lia|]; intros x H; injection H as <-; lia).
Qed.

(** every one of the conditions is needed: p4est_connectivity_is_valid reads *)
Definition bad_corners (nc : Z) (ttc off ctt ctc : list Z) : conn :=
  mkconn 0 1 0 nc None None 0 None [0; 0; 0; 0] [0; 1; 2; 3] [] [] [] [] ttc off ctt ctc.
Definition bad_edges (ne : Z) (tte off ett ete : list Z) : conn :=
  mkconn 0 1 ne 0 None None 0 None [0; 0; 0; 0; 0; 0] [0; 1; 2; 3; 4; 5] tte off ett ete [] [0] [] [].
Theorem C44_in_bounds_refuted :
  (* corner_to_tree[0] although there are no corners and the array is NULL *)
  (exists c, allocated D2 c /\ c_nc c = 0 /\ c_ctt c = [] /\ conn_is_valid D2 c = None) /\
  (* ctt_offset[8] although there is one corner *)
  (exists c, allocated D2 c /\ c_nc c = 1 /\ c_ttc c = [7; -1; -1; -1] /\ conn_is_valid D2 c = None) /\
  (* corner_to_tree[-1] *)
  (exists c, allocated D2 c /\ c_nc c = 1 /\ c_ttc c = [0; -1; -1; -1] /\ c_coff c = [-1; 0] /\ conn_is_valid D2 c = None) /\
  (* the same for edges *)
  (exists c, allocated D3 c /\ c_ne c = 0 /\ c_ett c = [] /\ conn_is_valid D3 c = None) /\
  (exists c, allocated D3 c /\ c_ne c = 1 /\ zget (c_tte c) 0 = Some 7 /\ conn_is_valid D3 c = None) /\
  (exists c, allocated D3 c /\ c_ne c = 1 /\ zget (c_tte c) 0 = Some 0 /\ c_eoff c = [-1; 0] /\ conn_is_valid D3 c = None).
Proof.
  split; [exists (bad_corners 0 [] [5] [] [])|
  split; [exists (bad_corners 1 [7; -1; -1; -1] [0; 0] [] [])|
  split; [exists (bad_corners 1 [0; -1; -1; -1] [-1; 0] [] [])|
  split; [exists (bad_edges 0 [] [5] [] [])|
  split; [exists (bad_edges 1 (7 :: repeat (-1) 11) [0; 0] [] [])|
          exists (bad_edges 1 (0 :: repeat (-1) 11) [-1; 0] [] [])]]]]];
  (split; [unfold allocated; cbn; repeat split; first [lia|discriminate]|]); vm_compute; repeat split.
Qed.
Print Assumptions C44_in_bounds_refuted.
