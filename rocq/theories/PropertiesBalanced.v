(** * Properties of p4est_is_balanced: C64 *)

From Coq Require Import ZArith List Bool Lia Arith ZifyBool Sorting.Sorted.
From Verif Require Import Quad Spec Interval QuadLemmas CompareLemmas DescLemmas SearchLocal RegionLemmas
  RangeBoundLemmas PropertiesNeighbor Transform Conn ConnLemmas Partition PartLemmas PartTrees PartFinal Comm CommLemmas OwnerLemmas PropertiesOwner
  Ghost GhostSpec GhostState GhostGeom GhostOut GhostSteps GhostQuad GhostSym GhostTouch GhostForest PropertiesGhost PropertiesGhostExchange GhostFind PropertiesGhostFind PropertiesGhostExists
  Balanced BalancedSpec BalancedCore BalancedSend BalancedLeaf.
Import ListNotations.
Open Scope Z_scope.

(** *** Lists of ranks *)
Lemma forall2_nth {A B} (R : A -> B -> Prop) l : forall l', Forall2 R l l' <-> length l = length l' /\ forall i a b, nth_error l i = Some a -> nth_error l' i = Some b -> R a b.
Proof.
  induction l as [|x l IH]; intros [|y l']; cbn [length].
  - split; [intros _; split; [reflexivity|intros [|i] a b H; discriminate H]|constructor].
  - split; [intros H; inversion H|intros (H & _); discriminate H].
  - split; [intros H; inversion H|intros (H & _); discriminate H].
  - split.
    + intros H. inversion H as [|? ? ? ? H1 H2]; subst. apply IH in H2. destruct H2 as (L & H2). split; [lia|]. intros [|i] a b Ea Eb; cbn [nth_error] in *; [injection Ea as <-; injection Eb as <-; exact H1|]. apply (H2 i); assumption.
    + intros (L & H). constructor; [apply (H 0%nat); reflexivity|]. apply IH. split; [lia|]. intros i a b Ea Eb. apply (H (S i)); assumption.
Qed.
Lemma nth_combine {A B} (l : list A) : forall (l' : list B) i, nth_error (combine l l') i = match nth_error l i, nth_error l' i with Some a, Some b => Some (a, b) | _, _ => None end.
Proof.
  induction l as [|x l IH]; intros [|y l'] [|i]; cbn [combine nth_error]; try reflexivity; [destruct (nth_error l i); reflexivity|]. apply IH.
Qed.
Lemma numbers_nth (ranks : list (rk quad)) i : (i < length ranks)%nat -> nth_error (rank_numbers ranks) i = Some (Z.of_nat i).
Proof. intros H. unfold rank_numbers. rewrite nth_error_map, (nth_error_nth' _ 0%nat) by (rewrite seq_length; lia). rewrite seq_nth by lia. reflexivity. Qed.
Lemma numbers_length (ranks : list (rk quad)) : length (rank_numbers ranks) = length ranks.
Proof. unfold rank_numbers. rewrite map_length, seq_length. reflexivity. Qed.

Lemma sync_sends_spec l : forall bufs, sync_sends l = Some (Some bufs) <-> Forall2 (fun x b => exists m, x = Some (Going m) /\ b = m_bufs m) l bufs.
Proof.
  induction l as [|x l IH]; intros bufs; cbn [sync_sends].
  - split; [intros [= <-]; constructor|intros H; inversion H; reflexivity].
  - split.
    + destruct x as [[m|]|]; [|destruct (sync_sends l); discriminate|discriminate]. destruct (sync_sends l) as [[bs|]|] eqn:E; try discriminate. intros [= <-]. constructor; [exists m; auto|]. apply IH. reflexivity.
    + intros H. inversion H as [|? b ? bs (m & -> & ->) H2]; subst. apply IH in H2. rewrite H2. reflexivity.
Qed.
Lemma exchanges_spec bufs rs : forall ls, exchanges bufs rs = Some ls <-> Forall2 (fun r x => ghost_exchange bufs r = Some x) rs ls.
Proof.
  induction rs as [|r rs IH]; intros ls; cbn [exchanges].
  - split; [intros [= <-]; constructor|intros H; inversion H; reflexivity].
  - split.
    + destruct (ghost_exchange bufs r) as [x|] eqn:E; [|discriminate]. destruct (exchanges bufs rs) as [l|] eqn:E2; [|discriminate]. intros [= <-]. constructor; [exact E|]. apply IH. reflexivity.
    + intros H. inversion H as [|? x ? l H1 H2]; subst. apply IH in H2. rewrite H1, H2. reflexivity.
Qed.
Lemma sync_and_true l : sync_and l = Some true <-> forall x, In x l -> x = Some true.
Proof.
  induction l as [|x l IH]; cbn [sync_and In]; [split; [intros _ x []|reflexivity]|]. split.
  - destruct x as [[]|]; [| |discriminate]; destruct (sync_and l) as [[]|]; try discriminate. intros _ x [<-|H]; [reflexivity|]. apply (proj1 IH eq_refl x H).
  - intros H. rewrite (H x (or_introl eq_refl)). rewrite (proj2 IH); [reflexivity|]. intros y Hy. apply H. right. exact Hy.
Qed.
Lemma loop_true {A} (f : A -> option bool) l : loop f l = Some true <-> forall x, In x l -> f x = Some true.
Proof.
  induction l as [|x l IH]; cbn [loop In]; [split; [intros _ x []|reflexivity]|]. split.
  - destruct (f x) as [[]|] eqn:E; try discriminate. intros H y [<-|Hy]; [exact E|]. apply (proj1 IH H y Hy).
  - intros H. rewrite (H x (or_introl eq_refl)). apply IH. intros y Hy. apply H. right. exact Hy.
Qed.
Lemma leaves_true d c ms P rank bsearch trees g first last : leaves_ok d c ms P rank bsearch trees g first last = Some true <->
  forall t q f, first <= t <= last -> In q (trees t) -> 0 <= f < faces d -> face_leaf d c ms P rank bsearch trees g t q f = Some true.
Proof.
  unfold leaves_ok. assert (K : forall n t, leaves_trees d c ms P rank bsearch trees g n t = Some true <->
    forall t' q f, t <= t' < t + Z.of_nat n -> In q (trees t') -> 0 <= f < faces d -> face_leaf d c ms P rank bsearch trees g t' q f = Some true).
  { induction n as [|n IH]; intros t; cbn [leaves_trees]; [split; [intros _ t' q f H; lia|reflexivity]|].
    assert (LT : loop (fun q => loop (face_leaf d c ms P rank bsearch trees g t q) (face_list d)) (trees t) = Some true <-> forall q f, In q (trees t) -> 0 <= f < faces d -> face_leaf d c ms P rank bsearch trees g t q f = Some true).
    { rewrite loop_true. split; [intros H q f Hq Hf; specialize (H q Hq); rewrite loop_true in H; apply H; apply face_list_in; exact Hf|]. intros H q Hq. apply loop_true. intros f Hf. apply H; [exact Hq|apply face_list_in; exact Hf]. }
    split.
    - intros H. destruct (loop (fun q => loop (face_leaf d c ms P rank bsearch trees g t q) (face_list d)) (trees t)) as [[]|]; try discriminate H. intros t' q f Ht Hq Hf. destruct (Z.eq_dec t' t) as [->|N]; [apply (proj1 LT eq_refl); assumption|].
      apply (proj1 (IH (t + 1)) H); auto. lia.
    - intros H. rewrite (proj2 LT) by (intros; apply H; auto; lia). apply IH. intros t' q f Ht. apply H. lia. }
  rewrite K. split; intros H t q f Ht; apply H; lia.
Qed.

Lemma leaves_total d c ms P rank bsearch trees g first last :
  (forall t q f, first <= t <= last -> In q (trees t) -> 0 <= f < faces d -> exists b, face_leaf d c ms P rank bsearch trees g t q f = Some b) ->
  exists b, leaves_ok d c ms P rank bsearch trees g first last = Some b.
Proof.
  assert (LT : forall A (f : A -> option bool) l, (forall x, In x l -> exists b, f x = Some b) -> exists b, loop f l = Some b).
  { intros A f l. induction l as [|x l IH]; intros H; cbn [loop]; [eauto|]. destruct (H x (or_introl eq_refl)) as ([] & E); rewrite E; [|eauto]. apply IH. intros y Hy. apply H. right. exact Hy. }
  unfold leaves_ok. assert (K : forall n t, (forall t' q f, t <= t' < t + Z.of_nat n -> In q (trees t') -> 0 <= f < faces d -> exists b, face_leaf d c ms P rank bsearch trees g t' q f = Some b) ->
    exists b, leaves_trees d c ms P rank bsearch trees g n t = Some b).
  { induction n as [|n IH]; intros t H; cbn [leaves_trees]; [eauto|].
    destruct (LT _ (fun q => loop (face_leaf d c ms P rank bsearch trees g t q) (face_list d)) (trees t)) as ([] & E).
    { intros q Hq. apply LT. intros f Hf. apply face_list_in in Hf. apply H; auto. lia. }
    - rewrite E. apply IH. intros t' q f Ht. apply H. lia.
    - rewrite E. eauto. }
  intros H. apply K. intros t' q f Ht. apply H. lia.
Qed.
Lemma sync_sends_total l : (forall x, In x l -> exists y, x = Some y) -> exists y, sync_sends l = Some y.
Proof.
  induction l as [|x l IH]; intros H; cbn [sync_sends]; [eauto|]. destruct (H x (or_introl eq_refl)) as (y & ->). destruct IH as (z & ->); [intros y' Hy; apply H; right; exact Hy|]. destruct y, z; eauto.
Qed.
Lemma sync_and_total l : (forall x, In x l -> exists y, x = Some y) -> exists y, sync_and l = Some y.
Proof.
  induction l as [|x l IH]; intros H; cbn [sync_and]; [eauto|]. destruct (H x (or_introl eq_refl)) as (y & ->). destruct IH as (z & ->); [intros y' Hy; apply H; right; exact Hy|]. eauto.
Qed.

(** C64: p4est_is_balanced for neighbors across faces, on any distribution of a complete forest:
    it returns true on all ranks exactly if the levels of leaves that touch across a face, in
    the same tree or in two trees, differ by at most one.  So it returns, and with true, for any
    balanced forest, and does not return true for any other.  On any forest it does not go
    outside of an array.
    Partial: P4EST_CONNECT_FACE only; no rank has just one leaf of the highest level; for an
    unbalanced forest the call may hang (below). *)
Theorem C64_is_balanced_partial : forall d c (ranks : list (rk quad)) bsearch ms, let T := c_nt c in
  conn_is_valid d c = Some true -> 0 <= T -> 0 <= c_ne c -> 0 <= c_nc c ->
  forest_ok d qid T ranks -> covers d qid 0 (T * TREE d) (glob T ranks) -> no_single T ranks ->
  bsearch_cmp_ok d bsearch -> global_partition qid T ranks = Some ms ->
  is_balanced_face d bsearch c ms ranks <> Error /\
  (is_balanced_face d bsearch c ms ranks = Returns true <-> face_balanced d c ranks).
Proof.
  intros d c ranks bsearch ms T V HT PE PC HF HC NS BS EM.
  assert (ZN : forall p r, zget ranks p = Some r <-> 0 <= p /\ nth_error ranks (Z.to_nat p) = Some r).
  { intros p r. split; [intros E; pose proof (zget_range _ _ _ E); rewrite zget_nth in E by lia; split; [lia|exact E]|intros (H & E); rewrite zget_nth by lia; exact E]. }
  assert (NZ : forall i r, nth_error ranks i = Some r -> zget ranks (Z.of_nat i) = Some r) by (intros i r E; apply ZN; rewrite Nat2Z.id; split; [lia|exact E]).
  assert (NL : forall i (r : rk quad), nth_error ranks i = Some r -> (i < length ranks)%nat) by (intros i r E; apply nth_error_Some; congruence).
  assert (LC : length (combine (rank_numbers ranks) ranks) = length ranks) by (rewrite combine_length, numbers_length; lia).
  assert (CN : forall i r, nth_error ranks i = Some r -> nth_error (combine (rank_numbers ranks) ranks) i = Some (Z.of_nat i, r)).
  { intros i r E. rewrite nth_combine, (numbers_nth ranks i (NL i r E)), E. reflexivity. }
  assert (LO : forall p r t q, zget ranks p = Some r -> (k_first _ r <= t <= k_last _ r /\ In q (k_trees _ r t) <-> In (t, q) (loc T r))).
  { intros p r t q E. destruct (rk_facts d c ranks HT HF p r E) as (_ & LR & _ & _ & FL). fold T in LR. rewrite LR, in_loc_from. split; [intros (H & I); split; [lia|exact I]|intros (H & I); split; [lia|exact I]]. }
  assert (HX : forall bufs, sync_sends (sends d c ms ranks) = Some (Some bufs) -> honest T ranks bufs).
  { intros bufs ES. apply sync_sends_spec in ES. apply forall2_nth in ES. destruct ES as (LS & ES). unfold sends in LS. rewrite map_length, LC in LS.
    split; [unfold zlen; lia|]. intros p b Eb. pose proof (zget_range _ _ _ Eb) as Rp. rewrite zget_nth in Eb by lia. destruct (nth_error ranks (Z.to_nat p)) as [r|] eqn:Er; [|apply nth_error_None in Er; unfold zlen in Rp; lia].
    assert (Ep : zget ranks p = Some r) by (apply ZN; split; [lia|exact Er]). exists r. split; [exact Ep|].
    destruct (ES (Z.to_nat p) (check_send d c ms (zlen ranks) p (k_first _ r) (k_last _ r) (k_trees _ r)) b) as (m & EC & ->); [|exact Eb|].
    { unfold sends. rewrite nth_error_map, (CN _ _ Er), Z2Nat.id by lia. reflexivity. }
    destruct (send_any d c ranks HT HF ms p r Ep m EC) as (LB & _ & _ & EV). split; [exact LB|]. intros p' inc Ei. pose proof (zget_range _ _ _ Ei) as R'. rewrite LB in R'. destruct (EV p' R') as (b' & Eb' & SB). rewrite Ei in Eb'. injection Eb' as <-. exact SB. }
  split; [|split].
  - (* no error *)
    unfold is_balanced_face. destruct (sync_sends_total (sends d c ms ranks)) as ([bufs|] & ES).
    { intros x Ix. apply in_map_iff in Ix. destruct Ix as ((k & r) & <- & Ik). apply In_nth_error in Ik. destruct Ik as (i & Ei).
      destruct (nth_error ranks i) as [r0|] eqn:Er; [|rewrite (proj2 (nth_error_None _ _)) in Ei; [discriminate Ei|]; rewrite LC; apply nth_error_None; exact Er].
      rewrite (CN i r0 Er) in Ei. injection Ei as <- <-. apply (send_total d c ranks V HT HF HC NS ms EM (Z.of_nat i) r0 (NZ i r0 Er)). }
    2:{ rewrite ES. discriminate. }
    rewrite ES. destruct (exchanges bufs (rank_numbers ranks)) as [layers|] eqn:EX; [|discriminate]. apply exchanges_spec in EX. apply forall2_nth in EX. destruct EX as (LX & EX).
    match goal with |- match sync_and ?x with _ => _ end <> _ => destruct (sync_and_total x) as (b & ->); [|discriminate] end.
    intros x Ix. apply in_map_iff in Ix. destruct Ix as (((k & r) & (ghosts & po)) & <- & Ik). apply In_nth_error in Ik. destruct Ik as (i & Ei). rewrite nth_combine in Ei.
    destruct (nth_error ranks i) as [r0|] eqn:Er; [|rewrite (proj2 (nth_error_None _ _)) in Ei; [discriminate Ei|]; rewrite LC; apply nth_error_None; exact Er].
    rewrite (CN i r0 Er) in Ei. destruct (nth_error layers i) as [l|] eqn:El; [|discriminate Ei]. injection Ei as <- <- ->. pose proof (NZ i r0 Er) as Ez. pose proof (EX i (Z.of_nat i) (ghosts, po) (numbers_nth ranks i (NL i r0 Er)) El) as EXi.
    destruct (layer_honest d T ranks HF bufs (Z.of_nat i) ghosts po (HX bufs ES) EXi) as (OK & GG).
    apply leaves_total. intros t q f Ht Hq Hf. apply (leaf_total d c ranks V PE PC HF HC ms EM bsearch BS (Z.of_nat i) r0 Ez (layer c (ghosts, po)) t q f OK GG); [|exact Hf].
    apply (in_glob T ranks (Z.of_nat i) r0 _ Ez). apply (LO _ r0 t q Ez). auto.
  - (* returns true *)
    intros E t q t' q' I I' (v & s & s' & DV & B & SN & IN). unfold is_balanced_face in E.
    destruct (sync_sends (sends d c ms ranks)) as [[bufs|]|] eqn:ES; try discriminate E. destruct (exchanges bufs (rank_numbers ranks)) as [layers|] eqn:EX; [|discriminate E].
    match type of E with match ?x with _ => _ end = _ => destruct x as [b|] eqn:EA; [|discriminate E] end. injection E as ->.
    apply exchanges_spec in EX. apply forall2_nth in EX. destruct EX as (LX & EX). rewrite numbers_length in LX. pose proof (HX bufs eq_refl) as HB.
    pose proof I as I0. unfold glob in I. apply in_flat_map in I. destruct I as (r & Ir & Il). apply In_nth_error in Ir. destruct Ir as (i & Er). pose proof (NZ i r Er) as Ez.
    destruct (nth_error layers i) as [(ghosts, po)|] eqn:El; [|apply nth_error_None in El; pose proof (NL i r Er); lia].
    pose proof (EX i (Z.of_nat i) (ghosts, po) (numbers_nth ranks i (NL i r Er)) El) as EXi. destruct (layer_honest d T ranks HF bufs (Z.of_nat i) ghosts po HB EXi) as (OK & GG).
    assert (LV : leaves_ok d c ms (zlen ranks) (Z.of_nat i) bsearch (k_trees _ r) (layer c (ghosts, po)) (k_first _ r) (k_last _ r) = Some true).
    { rewrite sync_and_true in EA. apply EA. apply in_map_iff. exists ((Z.of_nat i, r), (ghosts, po)). split; [reflexivity|]. apply (nth_error_In _ i). rewrite nth_combine, (CN i r Er), El. reflexivity. }
    rewrite leaves_true in LV. destruct (leaf_wf d c ranks HF t q I0) as (Ht & Wq).
    assert (FV : exists f, 0 <= f < faces d /\ v = face_obj f).
    { destruct (dir_cases d v) as [K|[(_ & e & _ & ->)|(k & _ & ->)]]; [|lia|exact K| |].
      - apply beside_comp in B. apply B.
      - rewrite dirs_edge in DV. cbn [upto] in DV. lia.
      - rewrite dirs_corner in DV. assert (2 <= nd d) by (clear; destruct d; cbn; lia). cbn [upto] in DV. lia. }
    destruct FV as (f & Hf & ->). apply (leaf_true d c ranks V PE PC HF HC ms EM bsearch BS (Z.of_nat i) r Ez (layer c (ghosts, po)) t q f OK GG I0 Hf) with (s := s) (t' := t') (s' := s'); auto.
    apply LV; [apply (LO _ r t q Ez); exact Il|apply (LO _ r t q Ez); exact Il|exact Hf].
  - (* balanced *)
    intros FB. destruct (C62_quadrant_exists_partial d c CFace ranks bsearch V HT PE PC HF HC NS (or_introl eq_refl)) as (ms' & bufs & EM' & LB & SE & H); [congruence|exact BS|]. fold T in EM', H. rewrite EM in EM'. injection EM' as <-.
    unfold is_balanced_face.
    assert (ES : sync_sends (sends d c ms ranks) = Some (Some bufs)).
    { apply sync_sends_spec. apply forall2_nth. unfold sends. rewrite map_length, LC. split; [unfold zlen in LB; lia|]. intros i x b Ex Eb.
      destruct (nth_error ranks i) as [r|] eqn:Er; [|apply nth_error_None in Er; assert (i < length bufs)%nat by (apply nth_error_Some; congruence); unfold zlen in LB; lia].
      rewrite nth_error_map, (CN i r Er) in Ex. injection Ex as <-. pose proof (NZ i r Er) as Ez. destruct (SE _ r Ez) as (m & mto & EG & Ebm). rewrite zget_nth, Nat2Z.id in Ebm by lia. rewrite Eb in Ebm. injection Ebm as ->.
      destruct (send_same d c ranks V HT PE PC HF HC NS ms EM (Z.of_nat i) r Ez FB) as (m1 & mto1 & EG1 & m' & EC & EQ). rewrite EG in EG1. injection EG1 as <- <-. exists m'. auto. }
    rewrite ES.
    destruct (list_exists (fun i x => forall r, nth_error ranks i = Some r -> ghost_exchange bufs (Z.of_nat i) = Some x) (length ranks)) as (layers & LL & HL).
    { intros i Hi. destruct (nth_error ranks i) as [r|] eqn:Er; [|apply nth_error_None in Er; lia]. destruct (H _ r (NZ i r Er)) as (ghosts & po & EX & _). exists (ghosts, po). intros r' _. exact EX. }
    assert (EX : exchanges bufs (rank_numbers ranks) = Some layers).
    { apply exchanges_spec. apply forall2_nth. rewrite numbers_length. split; [lia|]. intros i a x Ea Ex. assert (Hi : (i < length ranks)%nat) by (rewrite <- LL; apply nth_error_Some; congruence).
      rewrite (numbers_nth ranks i Hi) in Ea. injection Ea as <-. destruct (nth_error ranks i) as [r|] eqn:Er; [|apply nth_error_None in Er; lia]. apply (HL i x Ex r Er). }
    rewrite EX. match goal with |- match ?x with _ => _ end = _ => assert (K : x = Some true) end; [|rewrite K; reflexivity].
    apply sync_and_true. intros x Ix. apply in_map_iff in Ix. destruct Ix as (((k & r) & (ghosts & po)) & <- & Ik). apply In_nth_error in Ik. destruct Ik as (i & Ei). rewrite nth_combine in Ei.
    destruct (nth_error ranks i) as [r0|] eqn:Er; [|rewrite (proj2 (nth_error_None _ _)) in Ei; [discriminate Ei|]; rewrite LC; apply nth_error_None; exact Er].
    rewrite (CN i r0 Er) in Ei. destruct (nth_error layers i) as [l|] eqn:El; [|discriminate Ei]. injection Ei as <- <- ->. pose proof (NZ i r0 Er) as Ez. pose proof (HL i _ El r0 Er) as EXi.
    destruct (H _ r0 Ez) as (ghosts' & po' & EX' & QE). rewrite EXi in EX'. injection EX' as <- <-. cbv zeta in QE.
    apply leaves_true. intros t q f Ht Hq Hf. apply (leaf_bal d c ranks V HF HC ms bsearch (Z.of_nat i) r0 Ez (layer c (ghosts, po))); [|exact FB|apply (LO _ r0 t q Ez); auto|exact Hf].
    intros t0 q0 Ht0 Eq0 Rq0. destruct (QE t0 q0 Ht0 Eq0 Rq0) as (xs & Exs & SX & KX). exists xs. split; [exact Exs|]. split; [exact SX|]. intros y Iy. apply (KX y Iy).
Qed.

Print Assumptions C64_is_balanced_partial.

(** the forest of C59 meets the hypotheses, and it is balanced *)
Example C64_ex_g : exists ms, global_partition qid 2 g_ranks = Some ms /\ is_balanced_face D2 (bsearch_c D2) g_conn ms g_ranks = Returns true /\ face_balanced D2 g_conn g_ranks.
Proof.
  destruct (global_partition qid 2 g_ranks) as [ms|] eqn:EM; [|exfalso; vm_compute in EM; discriminate EM]. exists ms. split; [reflexivity|].
  destruct g_hyps as (V & HF & HC & NS & _).
  assert (E : is_balanced_face D2 (bsearch_c D2) g_conn ms g_ranks = Returns true) by (vm_compute in EM; injection EM as <-; vm_compute; reflexivity).
  split; [exact E|]. apply (C64_is_balanced_partial D2 g_conn g_ranks (bsearch_c D2) ms V ltac:(cbn; lia) ltac:(cbn; lia) ltac:(cbn; lia) HF HC NS (bsearch_c_ok D2) EM). exact E.
Qed.

(** *** Where it fails *)

(** two trees; the right faces are glued with a rotation by 180 degrees *)
Definition turn_conn : conn :=
  mkconn 0 2 0 0 None None 0 None [0; 1; 0; 0;  1; 0; 1; 1] [0; 5; 2; 3;  0; 5; 2; 3] [] [] [] [] [] [0] [] [].
(** tree 0 has one leaf; in tree 1 the child 3 is refined, and two of its children touch tree 0 *)
Definition turn_ranks : list (rk quad) := let c3 := child D2 g_root 3 in
  [ rk1 0 [g_root];
    rk1 1 [child D2 g_root 0; child D2 g_root 1; child D2 g_root 2; child D2 c3 0; child D2 c3 1];
    rk1 1 [child D2 c3 2; child D2 c3 3] ].

Lemma turn_hyps : hyps D2 turn_conn turn_ranks.
Proof.
  assert (C : covers D2 qid 0 (2 * TREE D2) (glob 2 turn_ranks)) by (vm_compute; repeat split).
  split; [vm_compute; reflexivity|]. do 3 (split; [cbn; lia|]). split; [|exact C].
  apply forest_by_covers; [|vm_compute; reflexivity|exact C]. repeat (constructor; [apply rk1_ok; [cbn; lia|discriminate]|]). constructor.
Qed.

(** with the same connectivity: the leaf of tree 0 touches two leaves of level 1 *)
Example C64_ex_turn : let ranks := [rk1 0 [g_root]; rk1 1 [child D2 g_root 0; child D2 g_root 1]; rk1 1 [child D2 g_root 2; child D2 g_root 3]] in
  option_map (fun ms => is_balanced_face D2 (bsearch_c D2) turn_conn ms ranks) (global_partition qid 2 ranks) = Some (Returns true).
Proof. vm_compute. reflexivity. Qed.
(** and leaves of level 2, all on one rank *)
Example C64_ex_unbalanced : let ranks := [rk1 0 [g_root]; rk1 1 [child D2 g_root 0; child D2 g_root 1]; rk1 1 (child D2 g_root 2 :: map (child D2 (child D2 g_root 3)) [0; 1; 2; 3])] in
  option_map (fun ms => is_balanced_face D2 (bsearch_c D2) turn_conn ms ranks) (global_partition qid 2 ranks) = Some (Returns false).
Proof. vm_compute. reflexivity. Qed.

(** The forest is not balanced, but the call does not return: the lower left corner of a small
    neighbor of the leaf of tree 0 has the same image as its upper right corner, since the code
    takes the first corner of both after the transformation.  So the leaf is sent to rank 1
    only, and nothing is noticed, while rank 2 sends to rank 0 and awaits its leaf. *)
Theorem C64_hang_refuted : exists c ranks ms bsearch,
  hyps D2 c ranks /\ no_single (c_nt c) ranks /\ bsearch_cmp_ok D2 bsearch /\ global_partition qid (c_nt c) ranks = Some ms /\
  ~ face_balanced D2 c ranks /\ is_balanced_face D2 bsearch c ms ranks = Hangs.
Proof.
  exists turn_conn, turn_ranks.
  destruct (global_partition qid (c_nt turn_conn) turn_ranks) as [ms|] eqn:EM; [|exfalso; vm_compute in EM; discriminate EM]. exists ms.
  exists (bsearch_c D2). split; [exact turn_hyps|]. split.
  { intros r t q H E. repeat (destruct H as [<-|H]; [vm_compute in E; first [discriminate E | injection E as _ <-; reflexivity]|]). destruct H. }
  split; [apply bsearch_c_ok|]. split; [reflexivity|]. split.
  - intros B. specialize (B 0 g_root 1 (child D2 (child D2 g_root 3) 1)).
    assert (K : Z.abs (ql g_root - ql (child D2 (child D2 g_root 3) 1)) = 2) by (vm_compute; reflexivity). rewrite K in B. clear K.
    assert (2 <= 1); [|lia]. apply B; [left; reflexivity|right; vm_compute; tauto|].
    exists (Some true, None, None), (mkq (2 ^ 30) (2 ^ 29 - 2) 0 29), (mkq (2 ^ 30 - 2) (2 ^ 29) 0 29).
    split; [cbn; lia|]. split; [|split].
    + split; [|split; [reflexivity|vm_compute; repeat split; discriminate]]. split; [cbn; lia|]. split; [exists (2 ^ 29); reflexivity|]. split; [exists (2 ^ 28 - 1); reflexivity|reflexivity].
    + right. left. destruct (find_face_transform D2 turn_conn 0 1) as [[(nt & ft)|]|] eqn:E; [|exfalso; vm_compute in E; discriminate E|exfalso; vm_compute in E; discriminate E].
      vm_compute in E. injection E as <- <-. eexists 1, _. split; [cbn; lia|]. split; [vm_compute; reflexivity|]. split; [vm_compute; reflexivity|]. vm_compute. reflexivity.
    + replace (child D2 (child D2 g_root 3) 1) with (mkq (2 ^ 30 - 2 ^ 28) (2 ^ 29) 0 2) by (vm_compute; reflexivity). intros x y z. unfold inq. cbn [qx qy qz ql]. change (side 29) with 2. change (side 2) with 268435456. lia.
  - vm_compute in EM. injection EM as <-. vm_compute. reflexivity.
Qed.

Print Assumptions C64_hang_refuted.
