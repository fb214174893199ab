(** * p4est_partition_given on all ranks *)

From Coq Require Import ZArith List Bool Lia Arith ZifyBool Sorting.Sorted.
From Verif Require Import Quad Search Adapt ListLemmas Partition PartLemmas PartTrees PartRecv.
Import ListNotations.
Open Scope Z_scope.

Lemma sub_min {A} a b (l : list A) : sub a (Nat.min b (length l)) l = sub a b l.
Proof.
  unfold sub. destruct (Nat.le_gt_cases b (length l)); [f_equal; lia|].
  replace (Nat.min b (length l)) with (length l) by lia.
  rewrite !firstn_all2; [reflexivity| |]; rewrite skipn_length; lia.
Qed.

Lemma mapi_opt_spec {B C} (f : Z -> B -> option C) : forall l i,
  (forall k x, nth_error l k = Some x -> exists y, f (i + Z.of_nat k) x = Some y) ->
  exists r, mapi_opt f i l = Some r /\ length r = length l /\
    forall k x y, nth_error l k = Some x -> nth_error r k = Some y -> f (i + Z.of_nat k) x = Some y.
Proof.
  induction l as [|x l IH]; intros i H; cbn [mapi_opt].
  - exists []. split; [reflexivity|]. split; [reflexivity|]. intros k x y Hx. destruct k; discriminate.
  - destruct (H 0%nat x eq_refl) as [y Hy]. rewrite Z.add_0_r in Hy. rewrite Hy.
    destruct (IH (i + 1)) as (r & E & L & N).
    { intros k z Hz. destruct (H (S k) z Hz) as [y' Hy']. exists y'. rewrite <- Hy'. f_equal. lia. }
    rewrite E. exists (y :: r). split; [reflexivity|]. split; [cbn; lia|].
    intros k z w Hz Hw. destruct k as [|k]; cbn [nth_error] in *.
    + injection Hz as <-. injection Hw as <-. rewrite Z.add_0_r. exact Hy.
    + rewrite <- (N k z w Hz Hw). f_equal. lia.
Qed.

Section Glue.
  Context {A : Type}.
  Variable T : Z.
  Variable ranks : list (rk A).
  Variable cn : list Z.
  Variable gft : list Z.
  Hypothesis Hok : Forall (rk_ok T) ranks.
  Hypothesis HTm : T <= topidx_max.
  Local Notation co := (map (fun r => zlen (loc T r)) ranks).
  Hypothesis Hcn : Forall (Z.le 0) cn.
  Hypothesis Hlen : length cn = length ranks.
  Hypothesis Hsum : pre cn (length cn) = pre co (length co).
  Hypothesis Hgft : forall i r, nth_error ranks i = Some r ->
    exists a b, nth_error gft i = Some a /\ nth_error gft (S i) = Some b /\ (0 <= k_first A r -> a = k_first A r /\ k_last A r <= b).
  Local Notation P := (zlen ranks).
  Local Notation olds := (lasts (-1) co).
  Local Notation news := (lasts (-1) cn).
  Local Notation od p := (pre co (Z.to_nat p)).
  Local Notation nw p := (pre cn (Z.to_nat p)).
  Local Notation ovl := (ovl co cn).

  Lemma Hco : Forall (Z.le 0) co.
  Proof. apply Forall_forall. intros x Hx. apply in_map_iff in Hx. destruct Hx as (r & <- & _). apply zlen_nonneg. Qed.
  Lemma Hlco : length co = length cn.
  Proof. rewrite map_length. lia. Qed.
  Lemma zlco : zlen co = P.
  Proof. unfold zlen. rewrite map_length. reflexivity. Qed.
  Lemma zlcn : zlen cn = P.
  Proof. unfold zlen. rewrite Hlen. reflexivity. Qed.

  Lemma od_step p r : zget ranks p = Some r -> 0 <= p < P /\ od (p + 1) = od p + zlen (loc T r) /\ rk_ok T r.
  Proof.
    unfold zget. destruct (p <? 0) eqn:C; [discriminate|]. intros E.
    assert (L : (Z.to_nat p < length ranks)%nat) by (apply nth_error_Some; congruence).
    split; [unfold zlen; lia|]. split.
    - replace (Z.to_nat (p + 1)) with (S (Z.to_nat p)) by lia. apply pre_S. rewrite nth_error_map, E. reflexivity.
    - rewrite Forall_forall in Hok. apply Hok. eapply nth_error_In. exact E.
  Qed.

  (** what goes from process p with local part r to process q *)
  Definition piece (p q : Z) (r : rk A) : list (Z * A) :=
    sub (Z.to_nat (nw q - od p)) (Z.to_nat (nw (q + 1) - od p)) (loc T r).

  Lemma piece_len p q r : zget ranks p = Some r -> 0 <= q -> zlen (piece p q r) = ovl p q.
  Proof.
    intros E Hq. destruct (od_step p r E) as (Hp & S & _). unfold piece, PartLemmas.ovl, ov.
    assert (ZL : zlen (loc T r) = Z.of_nat (length (loc T r))) by reflexivity. rewrite ZL in S.
    unfold zlen at 1. rewrite sub_length.
    assert (M : nw q <= nw (q + 1)) by (apply pre_mono; [exact Hcn|lia]). lia.
  Qed.

  Lemma piece_bounds p q r : zget ranks p = Some r -> 0 <= q -> 0 < ovl p q ->
    let a := Z.to_nat (Z.max (od p) (nw q) - od p) in
    let b := Z.to_nat (Z.max (od p) (nw q) - od p + ovl p q) in
    (a < b <= length (loc T r))%nat /\ piece p q r = sub a b (loc T r) /\
    Z.max (od p) (nw q) - od p = Z.of_nat a /\ Z.max (od p) (nw q) + ovl p q - 1 - od p = Z.of_nat b - 1.
  Proof.
    intros E Hq Hov a b. destruct (od_step p r E) as (Hp & S & _).
    assert (L : Z.of_nat b = Z.min (od (p + 1)) (nw (q + 1)) - od p).
    { unfold b, PartLemmas.ovl, ov in *. lia. }
    assert (La : a = Z.to_nat (nw q - od p)) by (unfold a; lia).
    assert (Lb : b = Nat.min (Z.to_nat (nw (q + 1) - od p)) (length (loc T r))).
    { assert (ZL : zlen (loc T r) = Z.of_nat (length (loc T r))) by reflexivity. lia. }
    split; [unfold a, b in *; lia|]. split; [|unfold a, b in *; lia].
    rewrite Lb, sub_min, La. reflexivity.
  Qed.

  (** the message from p to q *)
  Lemma make_msg_spec p q r nst g : zget ranks p = Some r -> 0 <= q -> 0 < ovl p q ->
    zget gft p = Some g -> nst = nst -> k_last A r - k_first A r < nst ->
    exists m, make_msg A r p nst (od p) (ovl p q) (Some (Z.max (od p) (nw q))) = Some m /\
      m_ntrees A m = nst /\ m_elems A m = map snd (piece p q r) /\
      (forall t, k_first A r <= t -> m_counts A m (t - k_first A r) = zlen (ofl t (piece p q r))).
  Proof.
    intros E Hq Hov Eg _ Hn. destruct (od_step p r E) as (Hp & S & Hr).
    pose proof (piece_bounds p q r E Hq Hov) as PB. cbv zeta in PB.
    set (a := Z.to_nat (Z.max (od p) (nw q) - od p)) in *.
    set (b := Z.to_nat (Z.max (od p) (nw q) - od p + ovl p q)) in *.
    destruct PB as (Hab & EP & Ea & Eb).
    pose proof (nonempty_first T r Hr a b Hab) as HF.
    unfold make_msg. rewrite Ea, Eb.
    destruct (pack_loop_spec T r Hr a b Hab nst (trips (k_first A r) (k_last A r)) (k_first A r) (fun _ => 0) [])
      as (cnt & EL & H1 & H2); [lia|unfold trips; lia|lia|reflexivity|].
    rewrite (off_first T r Hr) in EL by lia. rewrite Nat.min_0_r, Nat.max_0_r in EL. rewrite EL. cbn [app].
    rewrite (pts_all T r Hr a b Hab), <- EP.
    replace (zlen (map snd (piece p q r)) =? ovl p q) with true
      by (rewrite <- (piece_len p q r E Hq); unfold zlen; rewrite map_length; lia).
    eexists. split; [reflexivity|]. cbn [m_ntrees m_elems m_counts]. split; [reflexivity|]. split; [reflexivity|].
    intros t Ht. destruct (Z.le_gt_cases t (k_last A r)) as [L|G].
    - rewrite H1 by lia. rewrite EP, (pt_ofl T r a b Hab t) by lia. reflexivity.
    - rewrite H2 by lia. rewrite EP, ofl_none; [reflexivity|]. intros x Hx Q. apply in_sub in Hx.
      apply loc_from_labels in Hx. destruct Hx as [_ Hx]. rewrite Q in Hx.
      destruct Hr as [(? & ? & N)|(? & ? & N)]; [rewrite N in Hx; destruct Hx|].
      assert (NN : k_trees A r t <> []) by (intros Z; rewrite Z in Hx; destruct Hx). apply N in NN. lia.
  Qed.

  Lemma send_all_spec p r nst g num beg : zget ranks p = Some r -> zget gft p = Some g ->
    k_last A r - k_first A r < nst ->
    forall n q, 0 <= q -> (forall q', q <= q' < q + Z.of_nat n -> num q' = ovl p q' /\ (0 < ovl p q' -> beg q' = Some (Z.max (od p) (nw q')))) ->
    exists out, send_all A r p nst (od p) num beg n q = Some out /\
      (forall q' m, In (q', m) out -> q <= q' < q + Z.of_nat n /\ q' <> p /\ 0 < ovl p q') /\
      NoDup (map fst out) /\
      (forall q', q <= q' < q + Z.of_nat n -> q' <> p -> 0 < ovl p q' ->
         exists m, assoc q' out = Some m /\ m_ntrees A m = nst /\ m_elems A m = map snd (piece p q' r) /\
           (forall t, k_first A r <= t -> m_counts A m (t - k_first A r) = zlen (ofl t (piece p q' r)))).
  Proof.
    intros E Eg Hn. induction n as [|n IH]; intros q Hq H; cbn [send_all].
    - exists []. split; [reflexivity|]. split; [intros q' m []|]. split; [constructor|]. intros; lia.
    - destruct (IH (q + 1) ltac:(lia)) as (out & EO & O1 & O2 & O3); [intros q' Hq'; apply H; lia|]. rewrite EO.
      destruct (H q ltac:(lia)) as [E1 E2]. rewrite E1.
      assert (NN : 0 <= ovl p q) by (unfold PartLemmas.ovl, ov; lia).
      destruct (negb (q =? p) && negb (ovl p q =? 0)) eqn:C.
      + destruct (make_msg_spec p q r nst g E Hq ltac:(lia) Eg eq_refl Hn) as (m & EM & M1).
        rewrite (E2 ltac:(lia)), EM. exists ((q, m) :: out). split; [reflexivity|]. split; [|split].
        * intros q' m' [Q|Q]; [injection Q as <- <-; lia|]. apply O1 in Q. lia.
        * cbn [map fst]. constructor; [|exact O2]. intros Q. apply in_map_iff in Q. destruct Q as ((q' & m') & Q1 & Q2).
          cbn [fst] in Q1. apply O1 in Q2. lia.
        * intros q' Hq' N Hov. cbn [assoc]. destruct (q =? q') eqn:Q.
          -- assert (q = q') by lia. subst q'. exists m. split; [reflexivity|exact M1].
          -- apply O3; [lia|exact N|exact Hov].
      + exists out. split; [reflexivity|]. split; [|split; [exact O2|]].
        * intros q' m' Q. apply O1 in Q. lia.
        * intros q' Hq' N Hov. destruct (Z.eq_dec q q') as [->|]; [lia|]. apply O3; [lia|exact N|exact Hov].
  Qed.

  Lemma zget_gft p r : zget ranks p = Some r -> exists a b, zget gft p = Some a /\ zget gft (p + 1) = Some b /\
    (0 <= k_first A r -> a = k_first A r /\ k_last A r <= b).
  Proof.
    intros E. destruct (od_step p r E) as (Hp & _). rewrite zget_nth in E by lia.
    destruct (Hgft _ _ E) as (a & b & E1 & E2 & H). exists a, b. rewrite !zget_nth by lia.
    replace (Z.to_nat (p + 1)) with (S (Z.to_nat p)) by lia. auto.
  Qed.

  Lemma ovl_empty p q r : zget ranks p = Some r -> 0 <= q -> 0 < ovl p q -> 0 <= k_first A r.
  Proof.
    intros E Hq Hov. destruct (od_step p r E) as (Hp & S & Hr).
    pose proof (piece_bounds p q r E Hq Hov) as PB. cbv zeta in PB. destruct PB as (Hab & _).
    pose proof (nonempty_first T r Hr _ _ Hab). lia.
  Qed.

  (** the state of a rank when it starts to wait *)
  Definition plan_ok (p : Z) (r : rk A) (pl : plan A) : Prop :=
    0 <= p_from_begin A pl <= p_from_end A pl /\ p_from_end A pl < P /\
    (forall q, p_recv A pl q = if (p_from_begin A pl <=? q) && (q <=? p_from_end A pl) then ovl q p else 0) /\
    (forall q, 0 <= q < P -> ~ p_from_begin A pl <= q <= p_from_end A pl -> ovl q p = 0) /\
    p_send A pl p = ovl p p /\
    (exists v, (if (p_to_begin A pl <=? p) && (p_to_end A pl >=? p) then p_beg A pl p else Some 0) = Some v /\
       (0 < ovl p p -> v = Z.max (od p) (nw p))) /\
    (0 < ovl p p -> forall t, k_first A r <= t -> p_local A pl (t - k_first A r) = zlen (ofl t (piece p p r))) /\
    NoDup (map fst (p_out A pl)) /\
    (forall q m, In (q, m) (p_out A pl) -> 0 <= q < P /\ q <> p /\ 0 < ovl p q) /\
    (forall q, 0 <= q < P -> q <> p -> 0 < ovl p q ->
       exists m a b, assoc q (p_out A pl) = Some m /\ zget gft p = Some a /\ zget gft (p + 1) = Some b /\
         m_ntrees A m = b - a + 1 /\ m_elems A m = map snd (piece p q r) /\
           (forall t, k_first A r <= t -> m_counts A m (t - k_first A r) = zlen (ofl t (piece p q r)))).

  Lemma given_send_spec p r : zget ranks p = Some r ->
    exists pl, given_send A olds news gft p r = Some pl /\ plan_ok p r pl.
  Proof.
    intros E. destruct (od_step p r E) as (Hp & S & Hr). pose proof zlco as ZC.
    destruct (recv_plan_spec co cn Hco Hcn Hlco (eq_sym Hsum) p ltac:(lia)) as (fb & fe & num & ER & R0 & R1 & R2 & R3).
    destruct (send_plan_spec co cn Hco Hcn Hlco (eq_sym Hsum) p ltac:(lia)) as (tb & te & snum & beg & ES & S0 & S1 & S2 & S3 & S4).
    destruct (zget_gft p r E) as (a & b & G1 & G2 & G3).
    unfold given_send, num_trees_of. rewrite ER, ES, G1, G2, lower_lasts by lia.
    assert (SP : snum p = ovl p p).
    { rewrite S2. destruct ((tb <=? p) && (p <=? te)) eqn:Q; [reflexivity|]. symmetry. apply S3; lia. }
    assert (BP : 0 < ovl p p -> tb <= p <= te /\ beg p = Some (Z.max (od p) (nw p))).
    { intros Hov. assert (tb <= p <= te).
      { rewrite S2 in SP. destruct ((tb <=? p) && (p <=? te)) eqn:Q; [lia|]. lia. }
      split; [exact H|]. apply S4; assumption. }
    rewrite SP.
    assert (LOC : exists loc', (if ovl p p >? 0
      then match beg p with
           | Some b0 => local_loop A r (tree_lasts A r) (b0 - od p) (b0 + ovl p p - 1 - od p) (b - a + 1)
                     (trips (k_first A r) (k_last A r)) (k_first A r) (fun _ => 0)
           | None => None end else Some (fun _ => 0)) = Some loc' /\
      (0 < ovl p p -> forall t, k_first A r <= t -> loc' (t - k_first A r) = zlen (ofl t (piece p p r)))).
    { destruct (ovl p p >? 0) eqn:Q.
      - destruct (BP ltac:(lia)) as [_ ->].
        pose proof (piece_bounds p p r E ltac:(lia) ltac:(lia)) as PB. cbv zeta in PB.
        set (a' := Z.to_nat (Z.max (od p) (nw p) - od p)) in *.
        set (b' := Z.to_nat (Z.max (od p) (nw p) - od p + ovl p p)) in *.
        destruct PB as (Hab & EP & Ea & Eb). rewrite Ea, Eb.
        pose proof (nonempty_first T r Hr a' b' Hab) as HF. destruct (G3 ltac:(lia)) as [-> G4].
        destruct (local_loop_spec T r Hr a' b' Hab (b - k_first A r + 1) (trips (k_first A r) (k_last A r)) (k_first A r) (fun _ => 0))
          as (cnt & EL & H1 & H2); [lia|unfold trips; lia|lia|reflexivity|].
        exists cnt. split; [exact EL|]. intros _ t Ht. destruct (Z.le_gt_cases t (k_last A r)) as [L|G].
        + rewrite H1 by lia. rewrite EP, (pt_ofl T r a' b' Hab t) by lia. reflexivity.
        + rewrite H2 by lia. rewrite EP, ofl_none; [reflexivity|]. intros x Hx Q2. apply in_sub in Hx.
          apply loc_from_labels in Hx. destruct Hx as [_ Hx]. rewrite Q2 in Hx.
          destruct Hr as [(? & ? & N)|(? & ? & N)]; [rewrite N in Hx; destruct Hx|].
          assert (NN : k_trees A r t <> []) by (intros Z; rewrite Z in Hx; destruct Hx). apply N in NN. lia.
      - exists (fun _ => 0). split; [reflexivity|]. lia. }
    destruct LOC as (loc' & EL & HL). rewrite EL.
    assert (OUT : exists out, send_all A r p (b - a + 1) (od p) snum beg (trips tb te) tb = Some out /\
      (forall q' m, In (q', m) out -> tb <= q' <= te /\ q' <> p /\ 0 < ovl p q') /\
      NoDup (map fst out) /\
      (forall q', tb <= q' <= te -> q' <> p -> 0 < ovl p q' ->
         exists m, assoc q' out = Some m /\ m_ntrees A m = b - a + 1 /\ m_elems A m = map snd (piece p q' r) /\
           (forall t, k_first A r <= t -> m_counts A m (t - k_first A r) = zlen (ofl t (piece p q' r))))).
    { destruct (Z.lt_ge_cases (k_first A r) 0) as [NEG|POS].
      - (* empty rank *)
        assert (Z0 : forall q, 0 <= q -> ovl p q = 0).
        { intros q Hq. destruct (Z.lt_ge_cases 0 (ovl p q)) as [L|G]; [|unfold PartLemmas.ovl, ov in *; lia].
          pose proof (ovl_empty p q r E Hq L). lia. }
        assert (G : forall n q, 0 <= q -> send_all A r p (b - a + 1) (od p) snum beg n q = Some []).
        { induction n as [|n IH]; intros q Hq; cbn [send_all]; [reflexivity|]. rewrite IH by lia.
          assert (E0 : snum q = 0) by (rewrite S2; destruct (_ && _); [apply Z0; exact Hq|reflexivity]).
          rewrite E0. cbn [Z.eqb negb]. rewrite andb_false_r. reflexivity. }
        exists []. rewrite G by lia. split; [reflexivity|]. split; [intros q' m []|]. split; [constructor|].
        intros q' Hq' _ Hov. rewrite Z0 in Hov by lia. lia.
      - destruct (G3 POS) as [Ea Eb].
        destruct (send_all_spec p r (b - a + 1) a snum beg E G1 ltac:(lia) (trips tb te) tb S0) as (out & EO & O1 & O2 & O3).
        { intros q' Hq'. unfold trips in Hq'. rewrite S2. replace ((tb <=? q') && (q' <=? te)) with true by lia.
          split; [reflexivity|]. intros Hov. apply S4; [lia|exact Hov]. }
        exists out. split; [exact EO|]. split; [|split; [exact O2|]].
        + intros q' m Q. apply O1 in Q. unfold trips in Q. lia.
        + intros q' Hq'. apply O3. unfold trips. lia. }
    destruct OUT as (out & EO & O1 & O2 & O3). rewrite EO.
    eexists. split; [reflexivity|]. unfold plan_ok.
    cbn [p_from_begin p_from_end p_recv p_to_begin p_to_end p_send p_beg p_local p_out].
    split; [lia|]. split; [lia|]. split; [exact R2|]. split; [intros; apply R3; lia|]. split; [exact SP|].
    split.
    { destruct ((tb <=? p) && (te >=? p)) eqn:Q.
      - destruct (S4 p ltac:(lia)) as [N1 N2]. destruct (beg p) as [v|] eqn:Bv; [|congruence].
        exists v. split; [reflexivity|]. intros Hov. specialize (N2 Hov). congruence.
      - exists 0. split; [reflexivity|]. intros Hov. destruct (BP Hov). lia. }
    split; [exact HL|]. split; [exact O2|]. split.
    - intros q m Q. apply O1 in Q. lia.
    - intros q Hq N Hov. assert (Hq2 : tb <= q <= te).
      { destruct (Z.le_gt_cases tb q); [destruct (Z.le_gt_cases q te); [lia|]|]; rewrite S3 in Hov by lia; lia. }
      destruct (O3 q Hq2 N Hov) as (m & M1 & M2 & M3 & M4). exists m, a, b. auto 10.
  Qed.
End Glue.
