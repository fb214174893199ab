(** * The images of a point on an edge *)

From Coq Require Import ZArith List Bool Lia ZifyBool.
From Verif Require Import Quad Spec Morton CompareLemmas Neighbor PropertiesNeighbor Transform PropertiesTransform Partition Conn ConnLemmas ConnBounds PropertiesConn
  Canon CanonLemmas CanonRun CanonConn.
Import ListNotations.
Open Scope Z_scope.

(** edge e of tree t is an entry of the list of the edge number ae, with this flip *)
Definition edge_entry (c : conn) (ae t e f : Z) : Prop :=
  exists b e0 j, zget (c_eoff c) ae = Some b /\ zget (c_eoff c) (ae + 1) = Some e0 /\ b <= j < e0 /\
    zget (c_ett c) j = Some t /\ zget (c_ete c) j = Some (e + 12 * f) /\ 0 <= e < 12 /\ 0 <= f < 2.
(** no edge is listed with both flips, and the edges met through a face are listed with the flip
    that the faces imply *)
Definition edge_consistent (c : conn) (ae : Z) : Prop :=
  (forall t e f f', edge_entry c ae t e f -> edge_entry c ae t e f' -> f = f') /\
  (forall t e f t' e' fl, edge_entry c ae t e f -> edge_across_face c t e t' e' fl -> edge_entry c ae t' e' (Z.lxor f fl)).

Lemma lxor_bit a b : 0 <= a < 2 -> 0 <= b < 2 -> 0 <= Z.lxor a b < 2 /\ Z.lxor a (Z.lxor a b) = b /\ (Z.lxor a b = 0 <-> a = b).
Proof.
  intros Ha Hb. assert (A : a = 0 \/ a = 1) by lia. assert (B : b = 0 \/ b = 1) by lia.
  destruct A as [-> | ->], B as [-> | ->]; cbn; lia.
Qed.

(** crossing a face moves a point of the edge along with the edge *)
Definition chk_edge_face (e i nf o : Z) : bool :=
  let f := edge_faces e i in
  let (e', fl) := edge_step e f nf o in
  let nt := with_maps CFace 0 f nf (face_nt D3 (expand_face_transform D3 f nf o)) in
  (0 <=? e') && (e' <? 12) && (0 <=? fl) && (fl <? 2) &&
  forallb (fun i => let j := vget (n_perm nt) i in let s := vget (n_sign nt) i in
    match at_axis CEdge e' i, at_axis CEdge e j with
    | Some b, Some b' => s * (side b' - vget (n_oself nt) j) + vget (n_oneigh nt) i =? side b
    | None, None => (j =? e / 4) && (if fl =? 0 then (s =? 1) && (vget (n_oself nt) j =? vget (n_oneigh nt) i)
                                     else (s =? -1) && (vget (n_oself nt) j + vget (n_oneigh nt) i =? ROOT_LEN))
    | _, _ => false
    end) (axes D3).
Lemma chk_edge_face_all e i nf o : 0 <= e < 12 -> 0 <= i < 2 -> 0 <= nf < 6 -> 0 <= o < 4 -> chk_edge_face e i nf o = true.
Proof.
  intros He Hi Hn Ho.
  assert (A : zall 12 (fun e => zall 2 (fun i => zall 6 (fun nf => zall 4 (chk_edge_face e i nf)))) = true) by (vm_compute; reflexivity).
  pose proof (zall_spec _ _ e A He) as A1. cbv beta in A1. pose proof (zall_spec _ _ i A1 Hi) as A2. cbv beta in A2.
  pose proof (zall_spec _ _ nf A2 Hn) as A3. cbv beta in A3. exact (zall_spec _ _ o A3 Ho).
Qed.
Lemma edge_face_point e i nf o p e' fl : 0 <= e < 12 -> 0 <= i < 2 -> 0 <= nf < 6 -> 0 <= o < 4 -> on D3 CEdge e p ->
  edge_step e (edge_faces e i) nf o = (e', fl) ->
  0 <= e' < 12 /\ 0 <= fl < 2 /\ coordinates_transform_face D3 p (expand_face_transform D3 (edge_faces e i) nf o) = coordinates_transform_edge p e e' fl.
Proof.
  intros He Hi Hn Ho (_ & O) ES. pose proof (chk_edge_face_all e i nf o He Hi Hn Ho) as C. unfold chk_edge_face in C. rewrite ES in C. cbv zeta in C.
  rewrite !andb_true_iff in C. destruct C as ((((C1 & C2) & C3) & C4) & C). split; [lia|]. split; [lia|].
  pose proof (edge_faces_range e i He Hi) as FR.
  pose proof (face_nt_ok D3 (edge_faces e i) nf o 0 FR Hn Ho) as OK.
  rewrite <- (face_agree D3 (edge_faces e i) nf o 0 p FR Hn Ho).
  set (nt := with_maps CFace 0 (edge_faces e i) nf (face_nt D3 (expand_face_transform D3 (edge_faces e i) nf o))) in *.
  apply (vget_ext D3); [discriminate|discriminate|]. intros a Ha. rewrite forward_get, cte_on by (auto; lia). cbn [nd] in Ha.
  rewrite forallb_forall in C. specialize (C a (proj2 (axes_in D3 a) Ha)). cbv zeta in C.
  pose proof (O _ (perm_axis _ _ a OK Ha)) as Oj. unfold exact.
  destruct (at_axis CEdge e' a) as [b|], (at_axis CEdge e (vget (n_perm nt) a)) as [b'|]; try discriminate.
  - rewrite Oj. apply Z.eqb_eq in C. rewrite C. destruct b; reflexivity.
  - apply andb_true_iff in C as (Cj & C). assert (Ej : vget (n_perm nt) a = e / 4) by lia. rewrite Ej in *. f_equal.
    destruct (fl =? 0) eqn:E0; apply andb_true_iff in C as (Cs & C).
    + assert (Es : vget (n_sign nt) a = 1) by lia. rewrite Es. lia.
    + assert (Es : vget (n_sign nt) a = -1) by lia. rewrite Es. lia.
Qed.
(** moving along twice *)
Lemma cte_comp p e e' e'' f f' f'' : 0 <= e < 12 -> 0 <= e' < 12 -> 0 <= e'' < 12 -> 0 <= f < 2 -> 0 <= f' < 2 -> 0 <= f'' < 2 -> on D3 CEdge e p ->
  coordinates_transform_edge (coordinates_transform_edge p e e' (Z.lxor f f')) e' e'' (Z.lxor f' f'') = coordinates_transform_edge p e e'' (Z.lxor f f'').
Proof.
  intros He He' He'' Hf Hf' Hf'' (_ & O). apply (vget_ext D3); [discriminate|discriminate|]. intros i Hi. cbn [nd] in Hi.
  rewrite (cte_on _ e' e'' _ i), (cte_on p e e'' _ i) by auto. destruct (at_axis CEdge e'' i); [auto|].
  assert (A : forall e, 0 <= e < 12 -> 0 <= e / 4 < 3) by (intros x Hx; split; [apply Z.div_pos; lia|apply Z.div_lt_upper_bound; lia]).
  rewrite !(cte_on p e e' _ (e' / 4)) by (auto; apply A; auto). cbn [at_axis]. rewrite Z.eqb_refl.
  specialize (O _ (A e He)). cbn [at_axis] in O. rewrite Z.eqb_refl in O.
  assert (R : forall b : bool, - 2 ^ 31 <= (if b then vget p (e / 4) else ROOT_LEN - vget p (e / 4)) < 2 ^ 31) by (intros []; change ROOT_LEN with (2 ^ 30) in *; lia).
  rewrite (i32_id (if Z.lxor f f' =? 0 then vget p (e / 4) else ROOT_LEN - vget p (e / 4))) by (apply R). f_equal.
  destruct (lxor_bit f f' Hf Hf') as (_ & _ & X1). destruct (lxor_bit f' f'' Hf' Hf'') as (_ & _ & X2). destruct (lxor_bit f f'' Hf Hf'') as (_ & _ & X3).
  destruct (Z.lxor f f' =? 0) eqn:E1, (Z.lxor f' f'' =? 0) eqn:E2, (Z.lxor f f'' =? 0) eqn:E3; lia.
Qed.
Lemma cte_self p e : 0 <= e < 12 -> on D3 CEdge e p -> coordinates_transform_edge p e e 0 = p.
Proof.
  intros He (F & O). apply (vget_ext D3); [discriminate|auto|]. intros i Hi. cbn [nd] in Hi. rewrite cte_on by auto. specialize (O i Hi).
  destruct (at_axis CEdge e i) as [b|] eqn:E; [auto|]. cbn [at_axis] in E. destruct (i =? e / 4) eqn:EI; [|discriminate].
  assert (i = e / 4) by lia. subst i. change (0 =? 0) with true. cbv iota. apply i32_id. change ROOT_LEN with (2 ^ 30) in O. lia.
Qed.
Lemma cte_lies p e e' fl : 0 <= e < 12 -> 0 <= e' < 12 -> lies D3 CEdge e p -> lies D3 CEdge e' (coordinates_transform_edge p e e' fl).
Proof.
  intros He He' (_ & O). split; [discriminate|]. intros i Hi. cbn [nd] in Hi. rewrite cte_on by auto. destruct (at_axis CEdge e' i); [auto|].
  assert (A : 0 <= e / 4 < 3) by (split; [apply Z.div_pos; lia|apply Z.div_lt_upper_bound; lia]).
  specialize (O _ A). cbn [at_axis] in O. rewrite Z.eqb_refl in O. rewrite i32_id; change ROOT_LEN with (2 ^ 30) in *; destruct (fl =? 0); lia.
Qed.

(** the transforms of an edge, by its entries *)
Lemma edge_found c t e ae f ets : conn_is_valid D3 c = Some true -> 0 < c_ne c -> 0 <= t < c_nt c -> 0 <= e < 12 ->
  zget (c_tte c) (12 * t + e) = Some ae -> ae <> -1 -> edge_consistent c ae -> edge_entry c ae t e f -> find_edge_transform c t e = Some ets ->
  (forall t' e' fl, In (t', e', fl) ets -> edge_entry c ae t' e' (Z.lxor f fl) /\ 0 <= fl < 2) /\
  (forall t' e' f', edge_entry c ae t' e' f' ->
     (t' = t /\ e' = e /\ f' = f) \/ edge_across_face c t e t' e' (Z.lxor f f') \/ In (t', e', Z.lxor f f') ets).
Proof.
  intros V PE Ht He EA NA (U & _) EN F. split.
  - intros t' e' fl I. destruct (C49_edge_neighbors c t e ae V Ht He PE EA NA) as (ets' & F' & A & _). rewrite F in F'. injection F' as <-.
    destruct (A _ _ _ I) as (R1 & R2 & R3 & _ & _ & _ & b & e0 & j0 & j & f0 & g & B1 & B2 & B3 & B4 & _ & G1 & G2 & G3 & G4 & Q1 & Q2 & Q3).
    assert (f0 = f) by (apply (U t e); [exists b, e0, j0; repeat (split; [auto; fail|]); lia|auto]). subst f0. split; [|lia].
    assert (g = Z.lxor f fl).
    { destruct (lxor_bit f fl ltac:(lia) ltac:(lia)) as (_ & _ & X). destruct Q1 as [-> | ->], R3 as [-> | ->], Q2 as [-> | ->]; cbn in *; intuition lia. }
    subst g. exists b, e0, j. repeat (split; [auto; fail|]). lia.
  - intros t' e' f' (b' & e0' & j & B1 & B2 & B3 & G1 & G2 & R1 & R2).
    destruct EN as (b & e0 & j0 & C1 & C2 & C3 & K1 & K2 & R3 & R4). rewrite C1 in B1. rewrite C2 in B2. injection B1 as <-. injection B2 as <-.
    unfold find_edge_transform in F. destruct (c_ne c =? 0) eqn:N0; [lia|]. rewrite EA in F. destruct (ae =? -1) eqn:N1; [lia|]. rewrite C1, C2 in F.
    destruct (edge_distinct c t e) as [dis|] eqn:ED; [|discriminate].
    destruct (zslice (c_ett c) b (Z.to_nat (e0 - b))) as [ts|] eqn:Z1; [|discriminate].
    destruct (zslice (c_ete c) b (Z.to_nat (e0 - b))) as [es|] eqn:Z2; [|discriminate].
    destruct (zslice_nth _ _ _ _ Z1) as (L1 & M1). destruct (zslice_nth _ _ _ _ Z2) as (L2 & M2).
    assert (NE : forall a x y, nth_error (combine ts es) a = Some (x, y) <-> nth_error ts a = Some x /\ nth_error es a = Some y).
    { clear. revert es. induction ts as [|u ts IH]; intros [|v es] [|a] x y; cbn; try (split; [discriminate|intros (? & ?); discriminate]).
      - split; [intros H; injection H as -> ->; auto|intros (H1 & H2); injection H1 as ->; injection H2 as ->; auto].
      - apply IH. }
    assert (NT : forall a x y, b <= a < e0 -> zget (c_ett c) a = Some x -> zget (c_ete c) a = Some y -> nth_error (combine ts es) (Z.to_nat (a - b)) = Some (x, y)).
    { intros a x y Ha X Y. apply NE. rewrite M1, M2 by lia. replace (b + Z.of_nat (Z.to_nat (a - b))) with a by lia. auto. }
    assert (RQ : forall e f, 0 <= e < 12 -> 0 <= f < 2 -> Z.rem (e + 12 * f) 12 = e /\ Z.quot (e + 12 * f) 12 = f).
    { clear. intros e f He Hf. rewrite Z.rem_mod_nonneg, Z.quot_div_nonneg by lia.
      rewrite (Z.mul_comm 12), Z.mod_add, Z.div_add, Z.mod_small, Z.div_small by lia. lia. }
    destruct (find_self_spec t e (combine ts es) 0) as (k & re & X1 & X2 & X3).
    { exists (e + 12 * f). split; [|apply RQ; auto]. eapply nth_error_In. apply (NT j0); auto. }
    rewrite X3 in F. injection F as <-.
    assert (Q : Z.quot re 12 = f).
    { apply NE in X1. destruct X1 as (Y1 & Y2). assert (Hk : (k < Z.to_nat (e0 - b))%nat) by (rewrite <- L1; apply nth_error_Some; congruence).
      rewrite M1 in Y1 by auto. rewrite M2 in Y2 by auto.
      destruct (conn_valid_inv _ _ V) as (ne & nc & _ & _ & EV & _ & TV). specialize (EV eq_refl).
      destruct (valid_tree_inv _ _ _ _ _ (TV t Ht)) as (_ & _ & VE & _). specialize (VE eq_refl PE e He).
      destruct (valid_edge_true _ _ _ _ VE) as (ae' & E1 & _ & K). replace (t * 12 + e) with (12 * t + e) in E1 by lia. rewrite EA in E1. injection E1 as <-.
      destruct K as [|(b2 & e2 & flip & D1 & D2' & D3' & D4 & _)]; [contradiction|]. rewrite C1 in D1. rewrite C2 in D2'. injection D1 as <-. injection D2' as <-.
      destruct (valid_pair_inv _ _ _ _ _ (EV (b + Z.of_nat k) ltac:(lia))) as (t1 & k1 & P1 & P2 & P3 & P4).
      rewrite Y2 in P2. injection P2 as <-.
      assert (re = e + 12 * Z.quot re 12).
      { rewrite (Z.quot_rem' re 12) at 1. rewrite X2. lia. }
      assert (Q2 : 0 <= Z.quot re 12 < 2) by (rewrite Z.quot_div_nonneg by lia; split; [apply Z.div_pos; lia|apply Z.div_lt_upper_bound; lia]).
      apply (U t e); [|exists b, e0, j0; repeat (split; [auto; fail|]); auto].
      exists b, e0, (b + Z.of_nat k). split; [auto|]. split; [auto|]. split; [lia|]. split; [auto|]. split; [rewrite Y2; f_equal; auto|]. auto. }
    rewrite Q. destruct (Z.eq_dec (j - b) (Z.of_nat k)) as [EJ|NJ].
    + left. pose proof (NT j _ _ B3 G1 G2) as Y. replace (Z.to_nat (j - b)) with k in Y by lia. rewrite X1 in Y.
      assert (Y1 : t = t') by congruence. assert (Y2 : re = e' + 12 * f') by congruence.
      destruct (RQ e' f' R1 R2) as (W1 & W2). rewrite <- Y2 in W1, W2. split; [congruence|]. split; congruence.
    + destruct (mem_triple (t', e', Z.lxor f f') dis) eqn:MT.
      * apply mem_triple_true in MT. apply (edge_distinct_spec c V t e dis Ht He ED) in MT. destruct MT as [(Y1 & Y2 & Y3)|Y]; [|auto].
        left. destruct (lxor_bit f f' R4 R2) as (_ & _ & X). split; [auto|]. split; [auto|]. symmetry. apply X. auto.
      * right. right. apply edge_collect_spec. destruct (RQ e' f' R1 R2) as (W1 & W2). exists (Z.to_nat (j - b)), (e' + 12 * f').
        split; [apply NT; auto|]. split; [lia|]. split; [auto|]. split; [rewrite W2; apply Z.lxor_comm|]. intros I. apply mem_triple_true in I. congruence.
Qed.
(** every entry of the list is an edge with this number *)
Lemma entry_number c t e ae t' e' f' : conn_is_valid D3 c = Some true -> 0 < c_ne c -> 0 <= t < c_nt c -> 0 <= e < 12 ->
  zget (c_tte c) (12 * t + e) = Some ae -> ae <> -1 -> edge_entry c ae t' e' f' -> 0 <= t' < c_nt c /\ zget (c_tte c) (12 * t' + e') = Some ae.
Proof.
  intros V PE Ht He EA NA (b & e0 & j & C1 & C2 & C3 & K1 & K2 & R1 & R2).
  destruct (conn_valid_inv _ _ V) as (ne & nc & _ & _ & EV & _ & TV). specialize (EV eq_refl).
  destruct (valid_tree_inv _ _ _ _ _ (TV t Ht)) as (_ & _ & VE & _). specialize (VE eq_refl PE e He).
  destruct (valid_edge_true _ _ _ _ VE) as (ae' & E1 & _ & K). replace (t * 12 + e) with (12 * t + e) in E1 by lia. rewrite EA in E1. injection E1 as <-.
  destruct K as [|(b2 & e2 & flip & D1 & D2' & D3' & D4 & EL & _)]; [contradiction|]. rewrite C1 in D1. rewrite C2 in D2'. injection D1 as <-. injection D2' as <-.
  destruct (valid_pair_inv _ _ _ _ _ (EV j ltac:(lia))) as (t1 & k1 & P1 & P2 & P3 & P4). rewrite K1 in P1. injection P1 as <-. split; [auto|].
  destruct (edge_loop_entries c t e ae _ _ _ _ EL j ltac:(lia)) as (nt & code & X1 & X2 & X3). rewrite K1 in X1. rewrite K2 in X2.
  assert (nt = t') by congruence. assert (code = e' + 12 * f') by congruence. subst nt code. clear X1 X2.
  rewrite <- X3. f_equal. rewrite Z.rem_mod_nonneg by lia. rewrite (Z.mul_comm 12 f'), Z.mod_add, Z.mod_small by lia. lia.
Qed.
