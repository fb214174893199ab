(** * Properties of the exchange of data for the ghost layer: C63 *)

From Coq Require Import ZArith List Bool Lia Arith ZifyBool Sorting.Permutation.
From Verif Require Import Quad Spec Interval QuadLemmas DescLemmas Transform Conn ConnLemmas Partition PartLemmas PartTrees PartFinal Comm CommLemmas OwnerLemmas PropertiesOwner
  Ghost GhostSpec GhostQuad GhostLoop GhostForest GhostSym GhostTouch PropertiesGhost PropertiesGhostExchange PropertiesGhostFind GhostData GhostDataLemmas.
Import ListNotations.
Open Scope Z_scope.

Lemma selects_fun {A} (Q : A -> Prop) l a : selects Q l a -> forall b, selects Q l b -> a = b.
Proof. intros H. induction H as [|x l l' Y H IH|x l l' N H IH]; intros b Hb; inversion Hb; subst; try contradiction; [reflexivity|f_equal; auto|auto]. Qed.
Lemma zget_ext {A} (l m : list A) : (forall i, 0 <= i < zlen l -> zget l i = zget m i) -> zlen l = zlen m -> l = m.
Proof.
  revert m. induction l as [|x l IH]; intros [|y m] H L; try (unfold zlen in L; cbn in L; lia); [reflexivity|].
  assert (NL : 0 <= zlen l) by (unfold zlen; lia). assert (EL : zlen (x :: l) = zlen l + 1) by (unfold zlen; cbn [length]; lia). f_equal.
  - pose proof (H 0 ltac:(lia)) as H0. cbn in H0. congruence.
  - apply IH; [|unfold zlen in *; cbn [length] in *; lia]. intros i Hi. specialize (H (i + 1) ltac:(lia)). rewrite !zget_cons in H by lia. exact H.
Qed.
Lemma proc_joins : forall (offs : list (list Z)) sum, proc_mirrors sum offs = joins sum offs.
Proof. induction offs as [|o offs IH]; intros sum; [reflexivity|]. cbn [proc_mirrors joins]. rewrite IH. reflexivity. Qed.
Lemma nodup_pos {A} (l : list A) i j x : NoDup l -> zget l i = Some x -> zget l j = Some x -> i = j.
Proof.
  intros ND Ei Ej. pose proof (zget_range _ _ _ Ei). pose proof (zget_range _ _ _ Ej). rewrite zget_nth in Ei, Ej by lia.
  assert (Z.to_nat i = Z.to_nat j); [|lia]. apply (proj1 (NoDup_nth_error l) ND); [apply nth_error_Some; congruence|congruence].
Qed.
Lemma zget_combine {A B} (l : list A) (m : list B) i x y : zget l i = Some x -> zget m i = Some y -> zget (combine l m) i = Some (x, y).
Proof.
  intros Ex Ey. pose proof (zget_range _ _ _ Ex). rewrite zget_nth in Ex by lia; rewrite zget_nth in Ey by lia; rewrite zget_nth by lia. revert Ex Ey. generalize (Z.to_nat i) as k. clear. revert m. induction l as [|a l IH]; intros [|b m] [|k] Ex Ey; cbn in *; try discriminate; [congruence|apply IH; assumption].
Qed.

(** what p4est_ghost_new leaves on a rank: the ghosts with their offsets by rank, the mirrors, and
    the positions of those that each rank receives *)
Definition sides_of (d : dim) (c : conn) (bt : ctype) (ranks : list (rk quad)) (ms : list marker) (bufs : list (list (list gq))) (rank : Z) (r : rk quad) (s : gsides) : Prop :=
  exists m mto, ghost_send d c ms (zlen ranks) rank bt (k_first _ r) (k_last _ r) (k_trees _ r) = Some (m, mto) /\ zget bufs rank = Some (m_bufs m) /\
    s_mirrors s = m_mirrors m /\ proc_mirrors 0 (m_offs m) = (s_pm s, s_pmo s) /\ ghost_exchange bufs rank = Some (s_ghosts s, s_po s).

(** C63: the exchange of data for the ghosts, for elements of any type, with
    p4est_ghost_exchange_custom and p4est_ghost_exchange_custom_levels, on every rank of a
    complete forest.  Every send has its receive, of the same length.  In whatever order the
    messages arrive, the result is the same: a ghost in the range of levels has the element of
    the mirror_data of its owner for the mirror that is the same leaf, and any other ghost keeps
    what ghost_data held.
    Partial: as for C60, on whose ghost layer this is. *)
Theorem C63_exchange_custom_partial : forall d c bt (ranks : list (rk quad)), let T := c_nt c in
  conn_is_valid d c = Some true -> 0 <= T -> 0 <= c_ne c -> 0 <= c_nc c ->
  forest_ok d qid T ranks -> covers d qid 0 (T * TREE d) (glob T ranks) ->
  no_single T ranks -> bt = CFace \/ joined d c -> (d = D3 -> bt <> CFace -> edges_once c) ->
  exists ms bufs sts, global_partition qid T ranks = Some ms /\ zlen bufs = zlen ranks /\ zlen sts = zlen ranks /\
  (forall rank r, zget ranks rank = Some r -> exists s, zget sts rank = Some s /\ sides_of d c bt ranks ms bufs rank r s) /\
  forall A minl maxl (mds : list (list A)), zlen mds = zlen ranks ->
    (forall p s md, zget sts p = Some s -> zget mds p = Some md -> zlen md = zlen (s_mirrors s)) ->
  forall rank s gd, zget sts rank = Some s -> zlen gd = zlen (s_ghosts s) ->
  exists out, (forall order, Permutation order (active minl maxl s (zlen ranks)) -> exchange_levels minl maxl (combine sts mds) rank order gd = Some out) /\
    zlen out = zlen gd /\
    forall i g, zget (s_ghosts s) i = Some g -> exists p r' s' md k, p <> rank /\ zget ranks p = Some r' /\ In g (enum 0 (loc T r')) /\
      zget sts p = Some s' /\ zget mds p = Some md /\ zget (s_mirrors s') k = Some g /\
      zget out i = if (minl <=? ql (g_q g)) && (ql (g_q g) <=? maxl) then zget md k else zget gd i.
Proof.
  intros d c bt ranks T V HT PE PC HF HC NS HJ SO.
  destruct (C60_ghost_layer_partial d c bt ranks V HT PE PC HF HC NS HJ SO) as (ms & bufs & EM & LB & SE & H).
  destruct (C59_ghost_send_partial d c bt ranks V HT PE PC HF HC NS HJ) as (ms' & EM' & HS). rewrite EM in EM'. injection EM' as <-. fold T in EM, HS, SE, H.
  destruct (forest_markers d T ranks HF HC) as (ms1 & EM1 & L & MW & MI & MM & MB & ME & _ & BND). rewrite EM in EM1. injection EM1 as <-.
  destruct (per_rank ranks (fun rank s => exists r, zget ranks rank = Some r /\ sides_of d c bt ranks ms bufs rank r s)) as (sts & LS & HST).
  { intros rank r Er. destruct (SE rank r Er) as (m & mto & ES & EB). destruct (H rank r Er) as (ghosts & po & EX & _). destruct (proc_mirrors 0 (m_offs m)) as (pm, pmo) eqn:EPM.
    exists (mkgs ghosts po (m_mirrors m) pm pmo), r. split; [exact Er|]. exists m, mto. cbn [s_ghosts s_po s_mirrors s_pm s_pmo]. auto. }
  exists ms, bufs, sts. split; [exact EM|]. split; [exact LB|]. split; [exact LS|]. split.
  { intros rank r Er. destruct (HST rank r Er) as (s & Es & r0 & E0 & SD). rewrite Er in E0. injection E0 as <-. exists s. auto. }
  assert (IG : forall p r t q, zget ranks p = Some r -> In (t, q) (loc T r) -> 0 <= t < T /\ wf d q).
  { intros p r t q Er Hg. pose proof (in_glob T ranks p r _ Er Hg) as IG. split; [apply (glob_label T ranks _ IG)|apply (proj1 (proj2 HF) _ IG)]. }
  assert (SYM : forall p r p' r' t q t' q', zget ranks p = Some r -> zget ranks p' = Some r' -> p <> p' -> In (t, q) (loc T r) -> In (t', q') (loc T r') ->
     neighbors d c bt t q t' q' -> neighbors d c bt t' q' t q).
  { intros p r p' r' t q t' q' Ep Ep' NE I I' N. destruct (IG p r t q Ep I) as (Ht & Wq). destruct (IG p' r' t' q' Ep' I') as (Ht' & Wq').
    apply neighbors_sym; auto. intros u Wu Lu <- IU IU'. apply NE.
    destruct (proj2 (owns_leaf d T ranks HF HC ms EM p t u Ht Wu Lu)) as (Hp & O); [exists r, q; auto|].
    destruct (proj2 (owns_leaf d T ranks HF HC ms EM p' t u Ht Wu Lu)) as (Hp' & O'); [exists r', q'; auto|].
    apply (owner_unique d ms (zlen ranks) MM (tpos d t u)); auto. }
  set (P := zlen ranks). assert (HP : 0 <= P) by (unfold P, zlen; lia).
  assert (RK : forall A (l : list A) p, zlen l = P -> 0 <= p < P -> exists x, zget l p = Some x).
  { intros A l p LL Hp. rewrite zget_nth by lia. destruct (nth_error l (Z.to_nat p)) as [x|] eqn:E; [exists x; reflexivity|]. apply nth_error_None in E. unfold zlen in LL. lia. }
  (** the two sides of each pair of ranks *)
  assert (RECV : forall rank s, zget sts rank = Some s -> zlen (s_po s) = P + 1 /\ zget (s_po s) 0 = Some 0 /\ zget (s_po s) P = Some (zlen (s_ghosts s)) /\ steps (s_po s) P /\
     forall p r' a e, zget ranks p = Some r' -> zget (s_po s) p = Some a -> zget (s_po s) (p + 1) = Some e ->
       exists b, slice (s_ghosts s) a e = b /\ (forall g, In g b -> p <> rank /\ In g (enum 0 (loc T r'))) /\
         exists s' a' e', zget sts p = Some s' /\ steps (s_pmo s') P /\ P + 1 <= zlen (s_pmo s') /\ zget (s_pmo s') 0 = Some 0 /\ NoDup (s_mirrors s') /\
           zget (s_pmo s') rank = Some a' /\ zget (s_pmo s') (rank + 1) = Some e' /\ e' <= zlen (s_pm s') /\
           Forall2 (fun i g => zget (s_mirrors s') i = Some g) (slice (s_pm s') a' e') b).
  { intros rank s Es. pose proof (zget_range _ _ _ Es) as Rr. rewrite LS in Rr. destruct (RK _ ranks rank eq_refl Rr) as (r & Er).
    destruct (HST rank r Er) as (s0 & Es0 & r0 & E0 & m & mto & ES & EB & EMir & EPM & EX). rewrite Es in Es0. injection Es0 as <-. rewrite Er in E0. injection E0 as <-.
    destruct (H rank r Er) as (ghosts & po & EX' & LP & P0 & PN & SEL & _). rewrite EX in EX'. injection EX' as E1 E2. rewrite E1, E2 in *. fold P in LP, PN. split; [exact LP|]. split; [exact P0|]. split; [exact PN|]. split.
    { intros p Hp. destruct (RK _ ranks p eq_refl Hp) as (r' & Ep). destruct (SEL p r' Ep) as (a & e & Ea & Ee & R & _). exists a, e. auto. }
    intros p r' a e Ep Ea Ee. destruct (SEL p r' Ep) as (a0 & e0 & Ea0 & Ee0 & R & SL). rewrite Ea in Ea0. injection Ea0 as <-. rewrite Ee in Ee0. injection Ee0 as <-.
    exists (slice ghosts a e). split; [reflexivity|]. split.
    { intros g Hg. apply (selects_in _ _ _ SL) in Hg. destruct Hg as (I & N & _). auto. }
    destruct (HST p r' Ep) as (s' & Es' & r1 & E1' & m' & mto' & ES' & EB' & EMir' & EPM' & EX''). rewrite Ep in E1'. injection E1' as <-.
    destruct (HS p r' Ep) as (m1 & mto1 & pm1 & po1 & ESS & EPM1 & SM & _ & _ & HB & _). rewrite ES' in ESS. injection ESS as <- <-. rewrite EPM' in EPM1. injection EPM1 as <- <-.
    destruct (HB rank r Er) as (b & a' & e' & Eb & Ea' & Ee' & SB & F2).
    assert (EQ : slice ghosts a e = b).
    { apply (selects_fun _ _ _ SL). eapply selects_ext; [|exact SB]. intros g Hg. apply enum_in in Hg. cbn beta. split.
      - intros (N & t & q & I & NB). split; [congruence|]. exists t, q. split; [exact I|]. apply (SYM p r' rank r); auto.
      - intros (N & t & q & I & NB). split; [congruence|]. exists t, q. split; [exact I|]. apply (SYM rank r p r'); auto. }
    rewrite EQ. exists s', a', e'. split; [exact Es'|]. rewrite proc_joins in EPM'.
    destruct (joins_slice (m_offs m') 0 _ _ (Z.le_refl 0) EPM') as (_ & LPO & LA & SLP). pose proof (joins_head (m_offs m') 0) as JH. rewrite EPM' in JH. cbn [snd] in JH. rewrite Z.add_0_l in LA.
    assert (LO : P <= zlen (m_offs m')).
    { destruct (Z.le_gt_cases P 0) as [G|G]; [unfold zlen; lia|]. destruct (RK _ ranks (P - 1) eq_refl ltac:(lia)) as (rl & El). destruct (HB (P - 1) rl El) as (_ & _ & x & _ & _ & Ex & _). apply zget_range in Ex. lia. }
    assert (STM : steps (s_pmo s') (zlen (m_offs m'))).
    { intros q Hq. assert (X : exists o, zget (m_offs m') q = Some o). { rewrite zget_nth by lia. destruct (nth_error (m_offs m') (Z.to_nat q)) as [o|] eqn:E; [exists o; reflexivity|]. apply nth_error_None in E. unfold zlen in Hq. lia. }
      destruct X as (o & Eo). destruct (SLP q o Eo) as (x & y & Ex & Ey & Rx & _). exists x, y. auto. }
    split; [intros q Hq; apply STM; lia|]. split; [lia|]. split; [exact JH|]. split.
    { rewrite EMir'. apply (NoDup_map_inv gkey). pose proof (selects_sub _ _ _ SM) as SUB. pose proof (loc_nodup d T ranks HF p r' Ep) as ND. rewrite <- (enum_key (loc T r') 0) in ND. revert ND SUB. generalize (enum 0 (loc T r')) as el. generalize (m_mirrors m') as ml. clear.
      intros ml el ND SUB. induction SUB as [|x l l' SUB IH|x l l' SUB IH]; cbn [map] in *; [constructor| |].
      - inversion ND as [|k kl NI ND']; subst. constructor; [|apply IH; exact ND']. intros I. apply NI. apply in_map_iff in I. destruct I as (y & Ey & Iy). rewrite <- Ey. apply in_map. apply (sub_in _ _ _ SUB Iy).
      - inversion ND; subst. apply IH. assumption. }
    split; [exact Ea'|]. split; [exact Ee'|]. split; [apply (offsets_le (s_pmo s') (zlen (m_offs m')) _ LA STM (rank + 1) e'); [lia|exact Ee']|]. rewrite EMir'. exact F2. }
  intros A minl maxl mds LM LMD rank s gd Es LG. pose proof (zget_range _ _ _ Es) as Rr. rewrite LS in Rr. fold P in Rr.
  destruct (RECV rank s Es) as (LP & P0 & PN & ST & PAIR).
  assert (MDS : forall p, 0 <= p < P -> exists md, zget mds p = Some md) by (intros p Hp; apply RK; [exact LM|exact Hp]).
  set (msgs := fun q => match zget (combine sts mds) q with Some (s', md') => send_to minl maxl s' md' rank | None => None end).
  set (V' := fun q g (x : A) => exists s' md, zget sts q = Some s' /\ zget mds q = Some md /\ NoDup (s_mirrors s') /\ value (s_mirrors s') md g x).
  assert (MSG : forall q a e, 0 <= q < P -> zget (s_po s) q = Some a -> zget (s_po s) (q + 1) = Some e ->
     exists msg, msgs q = Some msg /\ Forall2 (V' q) (filter (sel minl maxl) (slice (s_ghosts s) a e)) msg).
  { intros q a e Hq Ea Ee. destruct (RK _ ranks q eq_refl Hq) as (r' & Eq). destruct (PAIR q r' a e Eq Ea Ee) as (b & EB & _ & s' & a' & e' & Es' & ST' & LP' & P0' & ND & Ea' & Ee' & LE' & F2). destruct (MDS q Hq) as (md & Emd).
    destruct (send_spec minl maxl s' md P rank a' e' b ST' LP' P0' (LMD q s' md Es' Emd) Rr Ea' Ee' LE' F2) as (msg & EMsg & FV). exists msg. unfold msgs. rewrite (zget_combine _ _ _ _ _ Es' Emd). split; [exact EMsg|]. rewrite EB.
    clear - FV Es' Emd ND. unfold V'. induction FV as [|g x l m Vx FV IH]; constructor; [exists s', md; auto|exact IH]. }
  assert (VU : forall q g x y, V' q g x -> V' q g y -> x = y).
  { intros q g x y (s1 & md1 & E1 & E2 & ND & i & Ei & Ex) (s2 & md2 & E3 & E4 & _ & j & Ej & Ey). rewrite E1 in E3. injection E3 as <-. rewrite E2 in E4. injection E4 as <-. pose proof (nodup_pos _ _ _ _ ND Ei Ej). subst j. congruence. }
  (** the leaf of a ghost *)
  assert (WHO : forall i g, zget (s_ghosts s) i = Some g -> exists q a e r', 0 <= q < P /\ zget (s_po s) q = Some a /\ zget (s_po s) (q + 1) = Some e /\ 0 <= a <= i /\ i < e /\
     q <> rank /\ zget ranks q = Some r' /\ In g (enum 0 (loc T r')) /\ In g (slice (s_ghosts s) a e)).
  { intros i g Ei. pose proof (zget_range _ _ _ Ei) as Ri. destruct (offsets_find (s_po s) P _ HP P0 PN ST i Ri) as (q & a & e & Hq & Ea & Ee & Rq). destruct (RK _ ranks q eq_refl Hq) as (r' & Eq).
    destruct (ST q Hq) as (a1 & e1 & X1 & X2 & R). rewrite Ea in X1. injection X1 as <-. rewrite Ee in X2. injection X2 as <-.
    destruct (PAIR q r' a e Eq Ea Ee) as (b & EB & INB & _). pose proof (slice_in (s_ghosts s) a e i g ltac:(lia) Rq Ei) as Hs. apply nth_error_In in Hs. rewrite EB in Hs. destruct (INB g Hs) as (N & I). exists q, a, e, r'. rewrite EB. repeat (split; [first [assumption|lia]|]). exact Hs. }
  assert (LEV : forall i g, zget (s_ghosts s) i = Some g -> all_levels minl maxl = true -> in_levels minl maxl g = true).
  { intros i g Ei AL. destruct (WHO i g Ei) as (q & a & e & r' & _ & _ & _ & _ & _ & _ & Eq & I & _). apply enum_in in I. destruct (IG q r' _ _ Eq I) as (_ & Wq). destruct Wq as (WL & _). unfold all_levels, in_levels, QMAXLEVEL, MAXLEVEL in *. lia. }
  assert (SELI : forall i g, zget (s_ghosts s) i = Some g -> sel minl maxl g = (minl <=? ql (g_q g)) && (ql (g_q g) <=? maxl)).
  { intros i g Ei. unfold sel. destruct (all_levels minl maxl) eqn:AL; [symmetry; apply (LEV i g Ei eq_refl)|reflexivity]. }
  assert (SRC : forall i g, zget (s_ghosts s) i = Some g -> exists p a e r' s' md k, 0 <= p < P /\ p <> rank /\ zget ranks p = Some r' /\ In g (enum 0 (loc T r')) /\
      zget sts p = Some s' /\ zget mds p = Some md /\ zget (s_mirrors s') k = Some g /\ zget (s_po s) p = Some a /\ zget (s_po s) (p + 1) = Some e /\ a <= i < e /\ In g (slice (s_ghosts s) a e) /\
      forall x, V' p g x -> zget md k = Some x).
  { intros i g Ei. destruct (WHO i g Ei) as (q & a & e & r' & Hq & Ea & Ee & R1 & R2 & N & Eq & I & IS). destruct (PAIR q r' a e Eq Ea Ee) as (b & EB & _ & s' & a' & e' & Es' & _ & _ & _ & ND & _ & _ & _ & F2). destruct (MDS q Hq) as (md & Emd).
    assert (K : exists k, zget (s_mirrors s') k = Some g). { rewrite EB in IS. clear - F2 IS. induction F2 as [|i g' l m Hi F2 IH]; [destruct IS|]. destruct IS as [->|IS]; [exists i; exact Hi|apply IH; exact IS]. }
    destruct K as (k & Ek). exists q, a, e, r', s', md, k. repeat (split; [assumption|]). split; [lia|]. split; [assumption|].
    intros x (s2 & md2 & E1 & E2 & _ & j & Ej & Ex). rewrite Es' in E1. injection E1 as <-. rewrite Emd in E2. injection E2 as <-. rewrite (nodup_pos _ _ _ _ ND Ek Ej). exact Ex. }
  destruct (negb (all_levels minl maxl) && (maxl <? minl)) eqn:EMPTY.
  { exists gd. split; [|split; [reflexivity|]].
    - intros order _. unfold exchange_levels. destruct (MDS rank Rr) as (md & Emd). rewrite (zget_combine _ _ _ _ _ Es Emd), EMPTY. reflexivity.
    - intros i g Ei. destruct (SRC i g Ei) as (p & a & e & r' & s' & md & k & Hp & N & Ep & I & Es' & Emd & Ek & _). exists p, r', s', md, k. repeat (split; [assumption|]).
      destruct ((minl <=? ql (g_q g)) && (ql (g_q g) <=? maxl)) eqn:C; [lia|reflexivity]. }
  assert (RUN : forall order, Permutation order (active minl maxl s P) -> exists out, exchange_levels minl maxl (combine sts mds) rank order gd = Some out /\ zlen out = zlen (s_ghosts s) /\
     forall i g q a e, zget (s_ghosts s) i = Some g -> 0 <= q < P -> zget (s_po s) q = Some a -> zget (s_po s) (q + 1) = Some e -> a <= i < e ->
        (sel minl maxl g = true -> exists x, zget out i = Some x /\ V' q g x) /\ (sel minl maxl g = false -> zget out i = zget gd i)).
  { intros order PO.
    assert (LPz : P + 1 <= zlen (s_po s)) by lia.
    assert (INA : forall q, In q order <-> 0 <= q < P /\ exists a n k, post_from minl maxl s q = Some (a, n, k) /\ 0 < k).
    { intros q. assert (X : In q order <-> In q (active minl maxl s P)) by (split; apply Permutation_in; [exact PO|apply Permutation_sym; exact PO]). rewrite X. unfold active. rewrite filter_In, in_map_iff. split.
      - intros ((k & <- & Hk) & C). apply in_seq in Hk. split; [lia|]. destruct (post_from minl maxl s (Z.of_nat k)) as [((a, n), kk)|]; [|discriminate]. exists a, n, kk. split; [reflexivity|lia].
      - intros (Hq & a & n & k & E & C). split; [exists (Z.to_nat q); split; [lia|apply in_seq; lia]|]. rewrite E. lia. }
    assert (NDO : NoDup order). { apply (Permutation_NoDup (Permutation_sym PO)). unfold active. apply NoDup_filter. apply FinFun.Injective_map_NoDup; [intros x y; apply Nat2Z.inj|apply seq_NoDup]. }
    destruct (complete_all_spec minl maxl s P ST LPz P0 PN V' msgs order NDO) with (gd := gd) as (out & EO & LO & K); [|exact LG|].
    { intros q Iq. apply INA in Iq. destruct Iq as (Hq & _). split; [exact Hq|]. destruct (ST q Hq) as (a & e & Ea & Ee & _). destruct (MSG q a e Hq Ea Ee) as (msg & EMsg & F). exists msg. split; [exact EMsg|].
      intros a1 e1 Ea1 Ee1. rewrite Ea in Ea1. injection Ea1 as <-. rewrite Ee in Ee1. injection Ee1 as <-. exact F. }
    exists out. split; [|split; [exact LO|]].
    - unfold exchange_levels. destruct (MDS rank Rr) as (md & Emd). rewrite (zget_combine _ _ _ _ _ Es Emd), EMPTY. fold msgs.
      match goal with |- (if ?c then _ else _) = _ => assert (C : c = true) end.
      { apply forallb_forall. intros q Iq. apply in_map_iff in Iq. destruct Iq as (k & <- & Hk). apply in_seq in Hk. rewrite combine_length in Hk. unfold zlen in LS, LM. fold P in LM. assert (Hq : 0 <= Z.of_nat k < P) by (unfold P, zlen; lia).
        destruct (ST _ Hq) as (a & e & Ea & Ee & _). destruct (post_spec minl maxl s P ST LPz P0 PN _ a e Hq Ea Ee) as (_ & _ & EPo). rewrite EPo. destruct (MSG _ a e Hq Ea Ee) as (msg & EMsg & F). unfold msgs in EMsg. cbv beta zeta. rewrite EMsg.
        unfold zlen. rewrite (F2_length _ _ _ F). apply eqb_reflx. }
      rewrite C. exact EO.
    - intros i g q a e Ei Hq Ea Ee Ri. destruct (K i g q a e Ei Hq Ea Ee Ri) as (K1 & K2). split; [|intros SG; apply K2; right; exact SG]. intros SG. apply K1; [|exact SG]. apply INA. split; [exact Hq|].
      destruct (post_spec minl maxl s P ST LPz P0 PN _ a e Hq Ea Ee) as (Ra & _ & EPo). exists a, (e - a), (zlen (filter (sel minl maxl) (slice (s_ghosts s) a e))). split; [exact EPo|].
      pose proof (slice_in (s_ghosts s) a e i g ltac:(lia) Ri Ei) as Hs. apply nth_error_In in Hs. assert (IF : In g (filter (sel minl maxl) (slice (s_ghosts s) a e))) by (apply filter_In; auto).
      unfold zlen. destruct (filter (sel minl maxl) (slice (s_ghosts s) a e)); [destruct IF|cbn [length]; lia]. }
  destruct (RUN _ (Permutation_refl _)) as (out & EO & LO & KO). exists out. split; [|split; [lia|]].
  - intros order PO. destruct (RUN order PO) as (out' & EO' & LO' & KO'). rewrite EO'. f_equal. apply zget_ext; [|lia]. intros i Hi. rewrite LO' in Hi.
    assert (EG : exists g, zget (s_ghosts s) i = Some g). { rewrite zget_nth by lia. destruct (nth_error (s_ghosts s) (Z.to_nat i)) as [g|] eqn:E; [exists g; reflexivity|]. apply nth_error_None in E. unfold zlen in Hi. lia. }
    destruct EG as (g & Eg). destruct (WHO i g Eg) as (q & a & e & r' & Hq & Ea & Ee & R1 & R2 & _).
    destruct (KO i g q a e Eg Hq Ea Ee ltac:(lia)) as (A1 & A2). destruct (KO' i g q a e Eg Hq Ea Ee ltac:(lia)) as (B1 & B2). destruct (sel minl maxl g).
    + destruct (A1 eq_refl) as (x & Ex & Vx). destruct (B1 eq_refl) as (y & Ey & Vy). rewrite Ex, Ey. f_equal. apply (VU q g); assumption.
    + rewrite A2, B2 by reflexivity. reflexivity.
  - intros i g Ei. destruct (SRC i g Ei) as (p & a & e & r' & s' & md & k & Hp & N & Ep & I & Es' & Emd & Ek & Ea & Ee & R & IS & U). exists p, r', s', md, k. repeat (split; [assumption|]).
    rewrite <- (SELI i g Ei). destruct (KO i g p a e Ei Hp Ea Ee R) as (A1 & A2). destruct (sel minl maxl g); [|apply A2; reflexivity]. destruct (A1 eq_refl) as (x & Ex & Vx). rewrite Ex. symmetry. apply U. exact Vx.
Qed.

(** tree->quadrants_offset: the number of local leaves in the trees before t *)
Definition tree_offset (T : Z) (r : rk quad) (t : Z) : Z := zlen (filter (fun x => fst x <? t) (loc T r)).

Lemma enum_offset trees n : forall t0 i g, In g (enum i (loc_from t0 n trees)) -> t0 <= g_t g /\
  exists k, 0 <= k /\ g_num g = i + zlen (filter (fun x => fst x <? g_t g) (loc_from t0 n trees)) + k /\ zget (trees (g_t g)) k = Some (g_q g).
Proof.
  induction n as [|n IH]; intros t0 i g; cbn [loc_from]; [intros []|]. rewrite enum_app, in_app_iff, filter_app, enum_number. unfold zlen at 1. rewrite map_length. fold (zlen (trees t0)). intros [I|I].
  - assert (K : forall qs j, In g (number t0 j qs) -> g_t g = t0 /\ exists k, 0 <= k /\ g_num g = j + k /\ zget qs k = Some (g_q g)).
    { induction qs as [|q qs IHq]; intros j; cbn [number]; [intros []|]. intros [<-|I'].
      - cbn [g_t g_num g_q]. split; [reflexivity|]. exists 0. split; [lia|]. split; [lia|reflexivity].
      - destruct (IHq _ I') as (A & k & B1 & B2 & B3). split; [exact A|]. exists (k + 1). split; [lia|]. split; [lia|]. rewrite zget_cons by lia. exact B3. }
    destruct (K _ _ I) as (A & k & B1 & B2 & B3). split; [lia|]. exists k. split; [exact B1|]. split; [|rewrite A; exact B3]. rewrite A, !filter_nil; [cbn [app]; change (zlen (@nil (Z * quad))) with 0; lia| |].
    + intros x Hx. destruct x as (tx, qx0). apply in_loc_from in Hx. cbn [fst]. lia.
    + intros x Hx. apply in_map_iff in Hx. destruct Hx as (q & <- & _). cbn [fst]. lia.
  - destruct (IH _ _ _ I) as (A & k & B1 & B2 & B3). split; [lia|]. exists k. split; [exact B1|]. split; [|exact B3]. rewrite B2.
    replace (filter (fun x => fst x <? g_t g) (map (pair t0) (trees t0))) with (map (pair t0) (trees t0)); [unfold zlen; rewrite app_length, map_length; lia|].
    clear - A. induction (trees t0) as [|q qs IHq]; [reflexivity|]. cbn [map filter fst]. replace (t0 <? g_t g) with true by lia. f_equal. exact IHq.
Qed.

(** C63: p4est_ghost_exchange_data: every ghost has the user data of its leaf on its owner, found
    there by tree and index.  [data] is per rank and tree the user data of the leaves.
    Partial: as for C60. *)
Theorem C63_exchange_data_partial : forall d c bt (ranks : list (rk quad)), let T := c_nt c in
  conn_is_valid d c = Some true -> 0 <= T -> 0 <= c_ne c -> 0 <= c_nc c ->
  forest_ok d qid T ranks -> covers d qid 0 (T * TREE d) (glob T ranks) ->
  no_single T ranks -> bt = CFace \/ joined d c -> (d = D3 -> bt <> CFace -> edges_once c) ->
  exists ms bufs sts, global_partition qid T ranks = Some ms /\ zlen sts = zlen ranks /\
  (forall rank r, zget ranks rank = Some r -> exists s, zget sts rank = Some s /\ sides_of d c bt ranks ms bufs rank r s) /\
  forall A (data : list (Z -> list A)), zlen data = zlen ranks ->
    (forall p r dt t, zget ranks p = Some r -> zget data p = Some dt -> zlen (dt t) = zlen (k_trees _ r t)) ->
  exists mds, zlen mds = zlen ranks /\
    (forall p r s dt, zget ranks p = Some r -> zget sts p = Some s -> zget data p = Some dt ->
       exists md, data_of_mirrors (tree_offset T r) dt (s_mirrors s) = Some md /\ zget mds p = Some md) /\
  forall rank s gd, zget sts rank = Some s -> zlen gd = zlen (s_ghosts s) ->
  exists out, (forall order, Permutation order (active 0 QMAXLEVEL s (zlen ranks)) -> exchange_levels 0 QMAXLEVEL (combine sts mds) rank order gd = Some out) /\
    zlen out = zlen gd /\
    forall i g, zget (s_ghosts s) i = Some g -> exists p r' dt k, p <> rank /\ zget ranks p = Some r' /\ zget data p = Some dt /\
      zget (k_trees _ r' (g_t g)) k = Some (g_q g) /\ g_num g = tree_offset T r' (g_t g) + k /\ zget out i = zget (dt (g_t g)) k.
Proof.
  intros d c bt ranks T V HT PE PC HF HC NS HJ SO.
  destruct (C63_exchange_custom_partial d c bt ranks V HT PE PC HF HC NS HJ SO) as (ms & bufs & sts & EM & LB & LS & HS & X).
  destruct (C59_ghost_send_partial d c bt ranks V HT PE PC HF HC NS HJ) as (ms' & EM' & H59). rewrite EM in EM'. injection EM' as <-. fold T in EM, H59, X.
  exists ms, bufs, sts. split; [exact EM|]. split; [exact LS|]. split; [exact HS|]. intros A data LD HD.
  assert (RK : forall B (l : list B) p, zlen l = zlen ranks -> 0 <= p < zlen ranks -> exists x, zget l p = Some x).
  { intros B l p LL Hp. rewrite zget_nth by lia. destruct (nth_error l (Z.to_nat p)) as [x|] eqn:E; [exists x; reflexivity|]. apply nth_error_None in E. unfold zlen in LL, Hp. lia. }
  assert (LEAF : forall r g, In g (enum 0 (loc T r)) -> exists k, 0 <= k /\ g_num g = tree_offset T r (g_t g) + k /\ zget (k_trees _ r (g_t g)) k = Some (g_q g)).
  { intros r g I. unfold loc in I. destruct (enum_offset _ _ _ _ _ I) as (_ & k & B1 & B2 & B3). exists k. split; [exact B1|]. split; [|exact B3]. unfold tree_offset, loc. lia. }
  assert (ONE : forall p r dt g, zget ranks p = Some r -> zget data p = Some dt -> In g (enum 0 (loc T r)) -> exists x, zget (dt (g_t g)) (g_num g - tree_offset T r (g_t g)) = Some x).
  { intros p r dt g Er Ed I. destruct (LEAF r g I) as (k & Hk & EN & EQ). replace (g_num g - tree_offset T r (g_t g)) with k by lia. pose proof (zget_range _ _ _ EQ) as R. rewrite <- (HD p r dt (g_t g) Er Ed) in R.
    rewrite zget_nth by lia. destruct (nth_error (dt (g_t g)) (Z.to_nat k)) as [x|] eqn:E; [exists x; reflexivity|]. apply nth_error_None in E. unfold zlen in R. lia. }
  assert (DM : forall p r dt l, zget ranks p = Some r -> zget data p = Some dt -> (forall g, In g l -> In g (enum 0 (loc T r))) ->
     exists md, data_of_mirrors (tree_offset T r) dt l = Some md /\ zlen md = zlen l /\ forall k g, zget l k = Some g -> zget md k = zget (dt (g_t g)) (g_num g - tree_offset T r (g_t g))).
  { intros p r dt l Er Ed. induction l as [|g l IH]; intros HI; [exists []; split; [reflexivity|split; [reflexivity|]]; intros k g E; apply zget_range in E; unfold zlen in E; cbn in E; lia|].
    destruct (ONE p r dt g Er Ed (HI g (or_introl eq_refl))) as (x & Ex). destruct (IH (fun g' I => HI g' (or_intror I))) as (md & Emd & L & K). exists (x :: md). cbn [data_of_mirrors]. rewrite Ex, Emd. split; [reflexivity|]. split; [unfold zlen in *; cbn [length]; lia|].
    intros k g' E. pose proof (zget_range _ _ _ E) as R. destruct (Z.eq_dec k 0) as [->|NZ]; [cbn in E; injection E as <-; rewrite Ex; reflexivity|]. replace k with (k - 1 + 1) in E by lia. replace k with (k - 1 + 1) by lia. rewrite zget_cons in E by lia. rewrite zget_cons by lia. apply K. exact E. }
  assert (MI : forall p r s, zget ranks p = Some r -> zget sts p = Some s -> forall g, In g (s_mirrors s) -> In g (enum 0 (loc T r))).
  { intros p r s Er Es g Ig. destruct (HS p r Er) as (s0 & Es0 & m & mto & ESend & _ & EMir & _). rewrite Es in Es0. injection Es0 as <-. destruct (H59 p r Er) as (m' & mto' & pm & po & ES' & _ & SM & _). rewrite ESend in ES'. injection ES' as <- <-.
    rewrite EMir in Ig. apply (selects_in _ _ _ SM) in Ig. apply Ig. }
  destruct (per_rank ranks (fun p md => exists r s dt, zget ranks p = Some r /\ zget sts p = Some s /\ zget data p = Some dt /\ data_of_mirrors (tree_offset T r) dt (s_mirrors s) = Some md /\
     zlen md = zlen (s_mirrors s) /\ forall k g, zget (s_mirrors s) k = Some g -> zget md k = zget (dt (g_t g)) (g_num g - tree_offset T r (g_t g)))) as (mds & LM & HM).
  { intros p r Er. pose proof (zget_range _ _ _ Er) as R. destruct (RK _ sts p LS R) as (s & Es). destruct (RK _ data p LD R) as (dt & Ed). destruct (DM p r dt (s_mirrors s) Er Ed (MI p r s Er Es)) as (md & E1 & E2 & E3). exists md, r, s, dt. auto 10. }
  exists mds. split; [exact LM|]. split.
  { intros p r s dt Er Es Ed. destruct (HM p r Er) as (md & Emd & r0 & s0 & dt0 & Er0 & Es0 & Ed0 & E1 & _). rewrite Er in Er0. rewrite Es in Es0. rewrite Ed in Ed0. injection Er0 as <-. injection Es0 as <-. injection Ed0 as <-. exists md. auto. }
  intros rank s gd Es LG. destruct (X A 0 QMAXLEVEL mds LM) with (rank := rank) (s := s) (gd := gd) as (out & RUN & LO & VAL); [|exact Es|exact LG|].
  { intros p s' md Es' Emd. pose proof (zget_range _ _ _ Es') as R. rewrite LS in R. destruct (RK _ ranks p eq_refl R) as (r & Er). destruct (HM p r Er) as (md0 & Emd0 & r0 & s0 & dt0 & Er0 & Es0 & Ed0 & E1 & E2 & _). rewrite Es' in Es0. injection Es0 as <-. rewrite Emd in Emd0. injection Emd0 as <-. exact E2. }
  exists out. split; [exact RUN|]. split; [exact LO|]. intros i g Ei. destruct (VAL i g Ei) as (p & r' & s' & md & k & N & Ep & I & Es' & Emd & Ek & EV).
  destruct (HM p r' Ep) as (md0 & Emd0 & r0 & s0 & dt & Er0 & Es0 & Ed & E1 & E2 & E3). rewrite Ep in Er0. injection Er0 as <-. rewrite Es' in Es0. injection Es0 as <-. rewrite Emd in Emd0. injection Emd0 as <-.
  destruct (LEAF r' g I) as (j & Hj & EN & EQ). exists p, r', dt, j. split; [exact N|]. split; [exact Ep|]. split; [exact Ed|]. split; [exact EQ|]. split; [exact EN|].
  assert (W : wf d (g_q g)) by (apply enum_in in I; apply (proj1 (proj2 HF) _ (in_glob T ranks p r' _ Ep I))). destruct W as (WL & _).
  replace ((0 <=? ql (g_q g)) && (ql (g_q g) <=? QMAXLEVEL)) with true in EV by (unfold QMAXLEVEL, MAXLEVEL; lia). rewrite EV, (E3 k g Ek), EN. f_equal. lia.
Qed.

(** the forest of C59_ex: the sides of its ranks *)
Definition x_sides : list gsides :=
  map (fun i => match zget (g_sends D2 g_conn CFull g_ranks) i, ghost_exchange (map (fun s => match s with Some (m, _) => m_bufs m | None => [] end) (g_sends D2 g_conn CFull g_ranks)) i with
                | Some (Some (m, _)), Some (g, po) => let (pm, pmo) := proc_mirrors 0 (m_offs m) in mkgs g po (m_mirrors m) pm pmo
                | _, _ => mkgs [] [] [] [] []
                end) [0; 1; 2; 3; 4; 5].
(** the element for a mirror is its rank, tree and local number; receives complete from the last
    rank to the first; the second time only the leaves of level 1 *)
Definition x_run (minl maxl : Z) (rank : Z) : option (list (Z * Z * Z)) :=
  let mds := map (fun ps => map (fun g => (fst ps, g_t g, g_num g)) (s_mirrors (snd ps))) (combine [0; 1; 2; 3; 4; 5] x_sides) in
  match zget x_sides rank with
  | None => None
  | Some s => exchange_levels minl maxl (combine x_sides mds) rank (rev (active minl maxl s 6)) (map (fun _ => (-1, -1, -1)) (s_ghosts s))
  end.
Example C63_ex : map (x_run 0 29) [1; 2; 4] =
  [ Some [(2, 0, 0); (2, 0, 1); (2, 0, 2); (2, 1, 5); (4, 1, 1)];
    Some [(1, 0, 0); (1, 0, 1); (4, 1, 0); (4, 1, 1); (4, 1, 2)];
    Some [(1, 0, 1); (2, 0, 2); (2, 1, 5)] ] /\
  x_run 2 29 1 <> x_run 0 29 1 /\ x_run 0 1 1 <> x_run 0 29 1 /\ x_run 3 2 1 = Some (repeat (-1, -1, -1) 5).
Proof. vm_compute. split; [reflexivity|]. split; [discriminate|]. split; [discriminate|reflexivity]. Qed.

Print Assumptions C63_exchange_custom_partial.
Print Assumptions C63_exchange_data_partial.
