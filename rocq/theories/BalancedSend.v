(** * What the ranks send in p4est_is_balanced *)

From Coq Require Import ZArith List Bool Lia Arith ZifyBool Sorting.Sorted.
From Verif Require Import Quad Spec Interval QuadLemmas CompareLemmas DescLemmas SearchLocal RegionLemmas Neighbor RangeBoundLemmas PropertiesRangeBound PropertiesNeighbor
  Transform PropertiesTransform Conn ConnLemmas Partition PartLemmas PartTrees PartFinal Comm CommLemmas OwnerLemmas PropertiesOwner
  Ghost GhostSpec GhostState GhostGeom GhostOut GhostSteps GhostQuad GhostLoop GhostForest GhostSym GhostTouch PropertiesGhost PropertiesGhostExchange GhostFind PropertiesGhostFind PropertiesGhostData
  Balanced BalancedSpec BalancedGeom BalancedImage BalancedCore.
Import ListNotations.
Open Scope Z_scope.

Lemma face_list_in d f : In f (face_list d) <-> 0 <= f < faces d.
Proof. unfold face_list. destruct d; cbn [In faces]; lia. Qed.

Lemma upper_right_in d n : ext d n -> ext d (upper_right d n) /\ ql (upper_right d n) = 29 /\ inbox d n (upper_right d n).
Proof.
  intros E. pose proof E as (L & _). destruct (ext_even d n E) as (a & b & e & Ea & Eb & Ee). destruct (side_even (ql n) L) as (k & Ek & Kp).
  assert (Q : QLEN (ql n) - QLEN QMAXLEVEL = 2 * k - 2) by (rewrite QLEN_side by lia; change (QLEN QMAXLEVEL) with 2; lia).
  unfold upper_right. rewrite Q. split; [|split; [reflexivity|]].
  - split; [cbn [ql]; unfold QMAXLEVEL, MAXLEVEL; lia|]. cbn [qx qy qz ql]. change (side QMAXLEVEL) with 2. split; [exists (a + k - 1); lia|]. split; [exists (b + k - 1); lia|].
    pose proof E as (_ & _ & _ & EZ). destruct d; cbn [is3]; [exact EZ|exists (e + k - 1); lia].
  - apply inbox_axes. cbn [qx qy qz ql]. change (side QMAXLEVEL) with 2. rewrite Ek. split; [lia|]. split; [lia|]. destruct d; [exact I|cbn [is3]; lia].
Qed.

(** ** One leaf *)
Section Steps.
  Variables (d : dim) (c : conn) (gfp : list marker) (P rank t num : Z) (q : quad) (m0 : mir).
  Hypothesis Hm : good d P t q m0.
  Local Notation ST := (st P t num q m0).

  Lemma add_any m S p m' : ST S m -> mirror_add d m t num q p = Some m' -> 0 <= p < P.
  Proof.
    intros (_ & _ & LB & _) E. unfold mirror_add in E. destruct (m_known m); cbn [m_bufs] in E; (destruct (zget (m_bufs m) p) eqn:Z0; [apply zget_range in Z0; lia|]); try discriminate E.
  Qed.

  Lemma halves_any f : forall ns p1 m S m', ST S m -> halves_step d c gfp P rank t num q f ns p1 m = Some (Going m') -> exists S', ST S' m'.
  Proof.
    induction ns as [|(n, ur) ns IH]; intros p1 m S m' H E; cbn [halves_step] in E; [injection E as <-; exists S; exact H|].
    destruct (quadrant_find_owner d c gfp P rank t f n) as [p0|]; [|discriminate E].
    destruct (match ur with None => Some p0 | Some u => quadrant_find_owner d c gfp P rank t f u end) as [p0ur|]; [|discriminate E].
    destruct (negb (p0 =? p0ur)); [discriminate E|]. destruct (negb (p0 =? rank) && (0 <=? p0) && negb (p0 =? p1)); [|apply (IH _ _ _ _ H E)].
    destruct (mirror_add d m t num q p0) as [m1|] eqn:EA; [|discriminate E]. pose proof (add_any _ _ _ _ H EA) as Hp. destruct (adds_one d P t num q m0 Hm p0 Hp m S H) as (m1' & S1 & E1 & H1 & _). rewrite EA in E1. injection E1 as <-.
    apply (IH _ _ _ _ H1 E).
  Qed.
  Lemma each_any fs : forall m S m', ST S m -> each_face d c gfp P rank t num q fs m = Some (Going m') -> exists S', ST S' m'.
  Proof.
    induction fs as [|f fs IH]; intros m S m' H E; cbn [each_face] in E; [injection E as <-; exists S; exact H|].
    destruct (face_check d c gfp P rank t num q m f) as [[m1|]|] eqn:EF; try discriminate E. destruct (halves_any f _ _ _ _ _ H EF) as (S1 & H1). apply (IH _ _ _ H1 E).
  Qed.
  Lemma quad_any info m' : check_quad d c gfp P rank info t num q m0 = Some (Going m') -> exists S', ST S' m'.
  Proof.
    intros E. unfold check_quad in E. pose proof (st_init d P t num q m0 Hm) as ST0. destruct (neighborhood_owned d gfp P rank t info q) as [[]|]; [injection E as <-; exists []; exact ST0| |discriminate E].
    apply (each_any _ _ _ _ ST0 E).
  Qed.

  Lemma halves_total f : forall ns p1 m S, ST S m ->
    (forall n ur, In (n, ur) ns -> (exists p, quadrant_find_owner d c gfp P rank t f n = Some p /\ p < P) /\ forall u, ur = Some u -> exists p, quadrant_find_owner d c gfp P rank t f u = Some p) ->
    exists x, halves_step d c gfp P rank t num q f ns p1 m = Some x.
  Proof.
    induction ns as [|(n, ur) ns IH]; intros p1 m S H HN; cbn [halves_step]; [eauto|]. destruct (HN n ur (or_introl eq_refl)) as ((p0 & E0 & R0) & EU). rewrite E0.
    assert (X : exists p0ur, match ur with None => Some p0 | Some u => quadrant_find_owner d c gfp P rank t f u end = Some p0ur) by (destruct ur; [apply EU; reflexivity|eauto]). destruct X as (p0ur & ->).
    destruct (negb (p0 =? p0ur)); [eauto|]. destruct (negb (p0 =? rank) && (0 <=? p0) && negb (p0 =? p1)) eqn:C; [|apply (IH p1 m S H); intros; apply HN; right; assumption].
    destruct (adds_one d P t num q m0 Hm p0 ltac:(lia) m S H) as (m1 & S1 & E1 & ST1 & _). rewrite E1. apply (IH p0 m1 _ ST1). intros; apply HN; right; assumption.
  Qed.
  Lemma each_total fs : (forall f, In f fs -> forall m S, ST S m -> exists x, face_check d c gfp P rank t num q m f = Some x) -> forall m S, ST S m -> exists x, each_face d c gfp P rank t num q fs m = Some x.
  Proof.
    induction fs as [|f fs IH]; intros HF m S H; cbn [each_face]; [eauto|]. destruct (HF f (or_introl eq_refl) m S H) as ([m1|] & E1); rewrite E1; [|eauto]. destruct (halves_any f _ _ _ _ _ H E1) as (S1 & H1).
    apply (IH (fun f' If => HF f' (or_intror If)) m1 S1 H1).
  Qed.

  Lemma halves_spec f : forall ns p1 m S, ST S m -> p1 = -1 \/ In p1 S ->
    (forall n ur, In (n, ur) ns -> exists p, quadrant_find_owner d c gfp P rank t f n = Some p /\ (forall u, ur = Some u -> quadrant_find_owner d c gfp P rank t f u = Some p) /\ -1 <= p < P) ->
    exists m' S', halves_step d c gfp P rank t num q f ns p1 m = Some (Going m') /\ ST S' m' /\
      forall p, In p S' <-> In p S \/ (0 <= p /\ p <> rank /\ exists n ur, In (n, ur) ns /\ quadrant_find_owner d c gfp P rank t f n = Some p).
  Proof.
    induction ns as [|(n, ur) ns IH]; intros p1 m S H H1 HN; cbn [halves_step].
    - exists m, S. split; [reflexivity|]. split; [exact H|]. intros p. split; [auto|]. intros [K|(_ & _ & n & ur & [] & _)]. exact K.
    - destruct (HN n ur (or_introl eq_refl)) as (p0 & E0 & EU & R0). rewrite E0.
      assert (EM : match ur with None => Some p0 | Some u => quadrant_find_owner d c gfp P rank t f u end = Some p0) by (destruct ur; [apply EU; reflexivity|reflexivity]). rewrite EM, Z.eqb_refl. cbn [negb].
      destruct (negb (p0 =? rank) && (0 <=? p0) && negb (p0 =? p1)) eqn:C.
      + destruct (adds_one d P t num q m0 Hm p0 ltac:(lia) m S H) as (m1 & S1 & E1 & ST1 & I1). rewrite E1.
        destruct (IH p0 m1 _ ST1) as (m2 & S2 & E2 & ST2 & I2); [right; apply in_or_app; left; apply I1; reflexivity|intros; apply HN; right; assumption|].
        exists m2, S2. split; [exact E2|]. split; [exact ST2|]. intros p. rewrite I2, in_app_iff, I1. split.
        * intros [[->|K]|(A & B & n' & ur' & I & K)]; [right|left; exact K|right]; (split; [lia|]; split; [lia|]); [exists n, ur; split; [left; reflexivity|exact E0]|exists n', ur'; split; [right; exact I|exact K]].
        * intros [K|(A & B & n' & ur' & [I|I] & K)]; [auto| |right; eauto 8]. injection I as <- <-. rewrite E0 in K. injection K as ->. auto.
      + destruct (IH p1 m S H H1) as (m2 & S2 & E2 & ST2 & I2); [intros; apply HN; right; assumption|]. exists m2, S2. split; [exact E2|]. split; [exact ST2|]. intros p. rewrite I2. split.
        * intros [K|(A & B & n' & ur' & I & K)]; [left; exact K|right]. split; [lia|]; split; [lia|]. exists n', ur'; split; [right; exact I|exact K].
        * intros [K|(A & B & n' & ur' & [I|I] & K)]; [auto| |right; eauto 8]. injection I as <- <-. rewrite E0 in K. injection K as ->. left. destruct H1 as [H1|H1]; [lia|]. assert (p = p1) by lia. subst. exact H1.
  Qed.
  Lemma each_spec (Q : Z -> Z -> Prop) fs : (forall f, In f fs -> forall m S, ST S m -> exists m' S', face_check d c gfp P rank t num q m f = Some (Going m') /\ ST S' m' /\ forall p, In p S' <-> In p S \/ Q f p) ->
    forall m S, ST S m -> exists m' S', each_face d c gfp P rank t num q fs m = Some (Going m') /\ ST S' m' /\ forall p, In p S' <-> In p S \/ exists f, In f fs /\ Q f p.
  Proof.
    induction fs as [|f fs IH]; intros HF m S H; cbn [each_face].
    - exists m, S. split; [reflexivity|]. split; [exact H|]. intros p. split; [auto|]. intros [K|(f & [] & _)]. exact K.
    - destruct (HF f (or_introl eq_refl) m S H) as (m1 & S1 & E1 & ST1 & I1). rewrite E1. destruct (IH (fun f' If => HF f' (or_intror If)) m1 S1 ST1) as (m2 & S2 & E2 & ST2 & I2). exists m2, S2. split; [exact E2|]. split; [exact ST2|].
      intros p. rewrite I2, I1. split; [intros [[K|K]|(f' & I & K)]; [auto|right; exists f; split; [left; reflexivity|exact K]|right; exists f'; split; [right; exact I|exact K]]|].
      intros [K|(f' & [<-|I] & K)]; [auto|auto|right; eauto].
  Qed.
End Steps.

(** ** All leaves of a rank *)
Section Rank.
  Variables (d : dim) (c : conn) (ranks : list (rk quad)).
  Let T := c_nt c.
  Let P := zlen ranks.
  Hypothesis V : conn_is_valid d c = Some true.
  Hypothesis HT : 0 <= T.
  Hypothesis PE : 0 <= c_ne c.
  Hypothesis PC : 0 <= c_nc c.
  Hypothesis HF : forest_ok d qid T ranks.
  Hypothesis HC : covers d qid 0 (T * TREE d) (glob T ranks).
  Hypothesis NS : no_single T ranks.
  Variable ms : list marker.
  Hypothesis EM : global_partition qid T ranks = Some ms.
  Variables (rank : Z) (r : rk quad).
  Hypothesis Er : zget ranks rank = Some r.
  Let G := glob T ranks.

  Lemma rank_range : 0 <= rank < P.
  Proof. destruct (skipn_zget ranks rank r Er) as (H & _). exact H. Qed.
  Lemma loc_glob x : In x (loc T r) -> In x G.
  Proof. apply (in_glob T ranks rank r x Er). Qed.

  (** *** without any balance: the buffers hold local leaves in order *)
  Definition inv0 (D : list gq) (m : mir) : Prop :=
    zlen (m_bufs m) = P /\ zlen (m_offs m) = P /\ m_sum m = sumlen (m_bufs m) /\
    forall p, 0 <= p < P -> exists b, zget (m_bufs m) p = Some b /\ sub b D.

  Lemma inv0_init : inv0 [] (mirror_init P).
  Proof.
    destruct (inv_init d c ms P rank CFace) as (A & B & E & _ & F); [pose proof rank_range; lia|]. split; [exact A|]. split; [exact B|]. split; [exact E|]. intros p Hp. destruct (F p Hp) as (b & o & Eb & _ & S & _). exists b. split; [exact Eb|apply (selects_sub _ _ _ S)].
  Qed.
  Lemma inv0_good D m t q : wf d q -> inv0 D m -> (forall g, In g D -> wf d (g_q g) /\ gkey g <> (t, q)) -> good d P t q m.
  Proof.
    intros Wq (LB & LO & SM & EV) HD. split; [exact LB|]. split; [exact LO|]. split; [exact SM|]. intros p buf x Eb Ix.
    assert (Hp : 0 <= p < P) by (rewrite <- LB; eapply zget_range; exact Eb). destruct (EV p Hp) as (b & Eb' & SB). rewrite Eb in Eb'. injection Eb' as <-.
    pose proof (sub_in _ _ _ SB Ix) as IX. destruct (HD x IX) as (Wx & NK).
    destruct ((t =? g_t x) && is_equal d q (g_q x)) eqn:E; [|reflexivity]. exfalso. apply andb_true_iff in E. destruct E as (E1 & E2).
    apply is_equal_eq in E2; [|exact Wq|exact Wx]. apply NK. unfold gkey. rewrite <- E2. f_equal. lia.
  Qed.
  Lemma inv0_st D m t num q S m' : inv0 D m -> st P t num q m S m' -> inv0 (D ++ [mkgq t num q]) m'.
  Proof.
    intros (LB & LO & SM & EV) (_ & _ & LB' & LO' & SM' & _ & EV'). split; [exact LB'|]. split; [exact LO'|]. split; [exact SM'|]. intros p Hp. destruct (EV p Hp) as (b & Eb & SB).
    destruct (zget (m_offs m) p) as [o|] eqn:Eo; [|rewrite zget_nth in Eo by lia; apply nth_error_None in Eo; unfold zlen in LO; lia].
    destruct (EV' p b o Hp Eb Eo) as (Eb' & _). eexists. split; [exact Eb'|]. apply sub_app; [exact SB|]. destruct (memb p S); cbn [one]; repeat constructor.
  Qed.

  Lemma tree_any info t : 0 <= t < T -> forall qs num D m m', inv0 D m -> (forall q, In q qs -> In (t, q) (loc T r)) -> Forall (fun g => wf d (g_q g)) D -> NoDup (map gkey (D ++ number t num qs)) ->
    check_tree d c ms P rank info t num qs m = Some (Going m') -> inv0 (D ++ number t num qs) m'.
  Proof.
    intros Ht. induction qs as [|q qs IH]; intros num D m m' I Hq HW ND E; cbn [check_tree number] in *; [rewrite app_nil_r; injection E as <-; exact I|].
    assert (Wq : wf d q) by (apply (leaf_wf d c ranks HF t q); apply loc_glob; apply Hq; left; reflexivity).
    assert (GD : good d P t q m).
    { apply (inv0_good D); auto. rewrite Forall_forall in HW. intros g Hg. split; [apply HW; exact Hg|]. intros EK. rewrite map_app in ND. cbn [map] in ND. apply NoDup_remove_2 in ND. apply ND.
      apply in_or_app. left. change (gkey (mkgq t num q)) with (t, q). rewrite <- EK. apply in_map. exact Hg. }
    destruct (check_quad d c ms P rank info t num q m) as [[m1|]|] eqn:EQ; try discriminate E. destruct (quad_any d c ms P rank t num q m GD info m1 EQ) as (S1 & ST1). pose proof (inv0_st _ _ _ _ _ _ _ I ST1) as I1.
    change (D ++ mkgq t num q :: number t (num + 1) qs) with (D ++ [mkgq t num q] ++ number t (num + 1) qs). rewrite app_assoc. apply (IH _ _ m1); auto.
    - intros x Hx. apply Hq. right. exact Hx.
    - apply Forall_app. split; [exact HW|]. constructor; [exact Wq|constructor].
    - rewrite <- app_assoc. exact ND.
  Qed.
  Lemma trees_any first last : (first <= last -> 0 <= first /\ last < T) -> (forall t q, first <= t <= last -> In q (k_trees _ r t) -> In (t, q) (loc T r)) -> forall n t num D m m', inv0 D m -> first <= t -> t + Z.of_nat n = last + 1 -> Forall (fun g => wf d (g_q g)) D ->
    NoDup (map gkey (D ++ numbered (k_trees _ r) n t num)) -> check_trees d c ms P rank first last (k_trees _ r) n t num m = Some (Going m') -> inv0 (D ++ numbered (k_trees _ r) n t num) m'.
  Proof.
    intros R HL. induction n as [|n IH]; intros t num D m m' I Ht Hn HW ND E; cbn [check_trees numbered] in *; [rewrite app_nil_r; injection E as <-; exact I|].
    destruct (tree_info d c ms rank first last t) as [info|]; [|discriminate E]. rewrite app_assoc in *.
    destruct (check_tree d c ms P rank info t num (k_trees _ r t) m) as [[m1|]|] eqn:ET; try discriminate E.
    assert (I1 : inv0 (D ++ number t num (k_trees _ r t)) m1).
    { apply (tree_any info t ltac:(lia) (k_trees _ r t) num D m m1); auto; [intros q Hq; apply HL; [lia|exact Hq]|]. rewrite map_app in ND. exact (nodup_app_l _ _ ND). }
    apply (IH _ _ _ m1 m' I1); auto; try lia. apply Forall_app. split; [exact HW|]. apply Forall_forall. intros g Hg. apply in_number in Hg. destruct Hg as (_ & Hg). apply (leaf_wf d c ranks HF t). apply loc_glob. apply HL; [lia|exact Hg].
  Qed.

  Lemma rk_facts : rk_ok T r /\ loc T r = loc_from (k_first _ r) (Z.to_nat (k_last _ r - k_first _ r + 1)) (k_trees _ r) /\
    (forall t q, k_first _ r <= t <= k_last _ r -> In q (k_trees _ r t) -> In (t, q) (loc T r)) /\
    (k_first _ r <= k_last _ r -> 0 <= k_first _ r /\ k_last _ r < T) /\ (k_first _ r <= k_last _ r \/ (k_first _ r = -1 /\ k_last _ r = -2)).
  Proof.
    assert (RK : rk_ok T r). { destruct HF as (RK & _). rewrite Forall_forall in RK. apply RK. pose proof rank_range. rewrite zget_nth in Er by lia. eapply nth_error_In. exact Er. }
    pose proof (loc_range T r RK) as LR. split; [exact RK|]. split; [exact LR|]. split; [|split].
    - intros t q Ht Hq. rewrite LR. apply in_loc_from. split; [lia|exact Hq].
    - intros Hfl. destruct RK as [(A & B & _)|(R1 & R2 & _)]; lia.
    - destruct RK as [(A & B & _)|(R1 & R2 & _)]; [right|left]; lia.
  Qed.

  Lemma send_any m : check_send d c ms P rank (k_first _ r) (k_last _ r) (k_trees _ r) = Some (Going m) -> inv0 (enum 0 (loc T r)) m.
  Proof.
    destruct rk_facts as (RK & LR & IL & RG & FL). intros E. unfold check_send in E. rewrite LR, enum_numbered. change (numbered (k_trees _ r) (Z.to_nat (k_last _ r - k_first _ r + 1)) (k_first _ r) 0) with ([] ++ numbered (k_trees _ r) (Z.to_nat (k_last _ r - k_first _ r + 1)) (k_first _ r) 0).
    destruct FL as [FL|(F1 & F2)].
    - apply (trees_any (k_first _ r) (k_last _ r) RG IL) with (m := mirror_init P); auto; try lia; [apply inv0_init|]. cbn [app]. rewrite <- enum_numbered, enum_key, <- LR. apply (loc_nodup d T ranks HF rank r Er).
    - rewrite F1, F2 in *. change (Z.to_nat (-2 - -1 + 1)) with 0%nat in *. cbn [check_trees] in E. injection E as <-. cbn [numbered app]. apply inv0_init.
  Qed.

  (** *** the small neighbors *)
  Lemma bound_owner t f q n : In (t, q) G -> 0 <= f < faces d -> on_face_boundary d c t f q = Some true -> here d f q n -> quadrant_find_owner d c ms P rank t f n = Some (-1).
  Proof.
    intros Iq Hf OB Hn. destruct (leaf_wf d c ranks HF t q Iq) as (Ht & Wq). pose proof (here_ext d f q n Hn) as En. pose proof (bound_out d c f q V Wq Hf) as BO. unfold on_face_boundary in OB. unfold quadrant_find_owner.
    destruct (zget (c_ttt c) (faces d * t + f)) as [nt|]; [|discriminate OB]. destruct (zget (c_ttf c) (faces d * t + f)) as [code|]; [|discriminate OB].
    destruct (negb (nt =? t) || negb (code =? f)) eqn:E; [discriminate OB|]. injection OB as OB. apply BO in OB. replace ((nt =? t) && (code =? f)) with true by lia.
    destruct Hn as [(O & _)|(_ & B)]; [rewrite OB in O; apply (f_equal dirs) in O; rewrite dirs_face in O; discriminate|].
    rewrite (inside_iff d n En), (GhostTouch.beyond_out d f n Hf B). replace (oeqb (face_obj f) (None, None, None)) with false; [reflexivity|].
    symmetry. apply not_true_iff_false. intros H. apply oeqb_eq in H. apply (f_equal dirs) in H. rewrite dirs_face in H. discriminate.
  Qed.

  (** the small neighbors, each with a cell next to the leaf *)
  Definition cells (q : quad) (f : Z) (n : quad) (ur : option quad) (s : quad) : Prop :=
    here d f q n /\ (forall u, ur = Some u -> here d f q u /\ inbox d n u) /\ beside d q (face_obj f) s /\ inbox d n s.
  Definition small (q : quad) (f : Z) : list (quad * option quad) :=
    if ql q =? QMAXLEVEL then [(face_neighbor d q f, None)]
    else map (fun i => let n := half_face_neighbor d q f (Z.of_nat i) in (n, Some (upper_right d n))) (seq 0 (Z.to_nat (half d))).

  Lemma small_cells t f q : In (t, q) G -> 0 <= f < faces d -> forall n ur, In (n, ur) (small q f) -> exists s, cells q f n ur s.
  Proof.
    intros Iq Hf n ur I. destruct (leaf_wf d c ranks HF t q Iq) as (Ht & Wq). pose proof (wf_level d q Wq) as L. unfold small in I. change QMAXLEVEL with 29 in I. destruct (ql q =? 29) eqn:E.
    - destruct I as [I|[]]. injection I as <- <-. rewrite (face_nb d q f (q_ext d q Wq) Hf). exists (nb d q (face_obj f)). split; [apply (here_N d f q Wq Hf)|]. split; [discriminate|].
      split; [apply (N_beside d c ranks HF t f q Iq Hf); lia|apply inbox_refl].
    - apply in_map_iff in I. destruct I as (i & EQ & Ii). injection EQ as <- <-. apply in_seq in Ii. assert (Hi : 0 <= Z.of_nat i < half d) by lia.
      destruct (half_here d c ranks HF t f q Iq Hf (Z.of_nat i) ltac:(lia) Hi) as (HH & LH & BN & BF & BS). pose proof (here_ext d f q _ HH) as EH. exists (front q f (half_face_neighbor d q f (Z.of_nat i))). split; [exact HH|]. split; [|auto].
      intros u Eu. injection Eu as <-. destruct (upper_right_in d _ EH) as (EU & _ & IU). split; [|exact IU]. apply (here_sub d f q Wq Hf); [exact EU|]. apply (inbox_trans d _ _ _ BN IU).
  Qed.

  Lemma local_facts t q : k_first _ r <= t <= k_last _ r -> In q (k_trees _ r t) -> exists full0 full1 con b,
    tree_info d c ms rank (k_first _ r) (k_last _ r) t = Some (full0, full1, con) /\ neighborhood_owned d ms P rank t (full0, full1, con) q = Some b /\
    (b = true -> forall p, 0 <= p < P -> neighbor_rank d c ms CFace t q p -> p = rank) /\
    forall p, sent_to d c ms P rank t q CFace p <-> by_faces d c ms P rank t q p.
  Proof.
    intros Ht Hq. destruct rk_facts as (RK & LR & IL & RG & FL). pose proof rank_range as Hrank. pose proof (IL t q Ht Hq) as I. pose proof (loc_glob _ I) as IG. destruct (leaf_wf d c ranks HF t q IG) as (Rt & Wq).
    destruct (forest_markers d T ranks HF HC) as (ms' & E' & Lm & MW & MI & MM & MB & ME & ONE & BND). rewrite EM in E'. injection E' as <-. specialize (ONE NS).
    assert (NE : forall t', k_first _ r <= t' <= k_last _ r -> exists q', In (t', q') (loc T r)).
    { intros t' Ht'. destruct RK as [(A & B & _)|(_ & _ & N)]; [lia|]. destruct (k_trees _ r t') as [|q' qs] eqn:E; [exfalso; apply (proj2 (N t') Ht'); exact E|].
      exists q'. apply IL; [exact Ht'|]. rewrite E. left. reflexivity. }
    assert (Hfirst : mp d ms rank < (k_first _ r + 1) * TREE d).
    { destruct (NE (k_first _ r) ltac:(lia)) as (q' & I'). destruct (BND rank r _ Er I') as (B & _). cbn [fst snd] in B. pose proof (qpos_range d q'). unfold tpos in B. lia. }
    assert (Hlast : k_last _ r * TREE d <= mp d ms (rank + 1)).
    { destruct (NE (k_last _ r) ltac:(lia)) as (q' & I'). destruct (BND rank r _ Er I') as (_ & B). cbn [fst snd] in B.
      destruct (leaf_wf d c ranks HF _ q' (loc_glob _ I')) as (_ & Wq'). pose proof (qpos_range d q'). pose proof (qsize_pos d q' Wq'). unfold tend, qend in B. lia. }
    assert (Hown : owns d ms rank t q).
    { destruct (BND rank r _ Er I) as (B1 & B2). cbn [fst snd] in *. pose proof (qsize_pos d q Wq). unfold owns. unfold tpos, tend, qend in *. lia. }
    assert (HP1 : 1 <= P) by lia.
    destruct (info_spec d c ms P rank t (k_first _ r) (k_last _ r) q CFace HP1 Lm MW MI MM MB ME ONE Hrank Wq Rt V (or_introl eq_refl) Hfirst Hlast Hown) as (full0 & full1 & con & EI & HF' & HC').
    destruct (skip_spec d c ms P rank t (k_first _ r) (k_last _ r) q CFace HP1 Lm MW MI MM MB ME ONE Hrank Wq Rt V (or_introl eq_refl) Hfirst Hlast Hown full0 full1 con HF' HC') as (b & EB & SK).
    exists full0, full1, con, b. split; [exact EI|]. split; [exact EB|]. split; [exact SK|]. intros p.
    rewrite (sent_parts d c ms P rank t (k_first _ r) (k_last _ r) q CFace MW MI MM MB ME ONE Wq V (or_introl eq_refl) Hfirst Hlast Hown p).
    split; [intros [K|[(N & _)|(N & _)]]; [exact K|congruence|congruence]|auto].
  Qed.

  (** *** the search for the owners is always defined *)
  Lemma owner_total t f q n : In (t, q) G -> 0 <= f < faces d -> here d f q n -> exists p, quadrant_find_owner d c ms P rank t f n = Some p /\ p < P.
  Proof.
    intros Iq Hf Hn. destruct (leaf_wf d c ranks HF t q Iq) as (Ht & Wq). pose proof rank_range as Hrank.
    destruct (side_cases d c t f q V Ht Wq Hf) as [(OB & _)|(_ & nt & phi & IM)]; [exists (-1); split; [apply (bound_owner t f q n Iq Hf OB Hn)|lia]|].
    destruct (proj2 IM n Hn) as (Wn & _ & _ & _ & EO). rewrite EO. destruct (leaf_at d c ranks HF HC nt (phi n) (proj1 IM) Wn) as (p & r' & b & E1 & I1 & _ & W).
    destruct (forest_markers d T ranks HF HC) as (ms' & EM' & Lm & MW & MI & MM & MB & ME & _ & BND). rewrite EM in EM'. injection EM' as <-.
    pose proof (qpos_range d (phi n)) as RQ. pose proof (tree_pos d) as TP. destruct IM as (Rt & _).
    destruct (find_owner_spec d ms (zlen ranks) ltac:(unfold P in *; lia) Lm MI nt (phi n) rank (wf_qin d _ Wn) Hrank) as (p' & EF & Hp & _).
    { rewrite MB, ME. unfold tpos. fold T in Rt. assert (0 <= nt * TREE d) by (apply Z.mul_nonneg_nonneg; lia). assert ((nt + 1) * TREE d <= T * TREE d) by (apply Z.mul_le_mono_nonneg_r; lia). lia. }
    exists p'. split; [exact EF|unfold P; lia].
  Qed.
  Lemma quad_total t num q info m : k_first _ r <= t <= k_last _ r -> In q (k_trees _ r t) -> tree_info d c ms rank (k_first _ r) (k_last _ r) t = Some info -> good d P t q m ->
    exists x, check_quad d c ms P rank info t num q m = Some x.
  Proof.
    intros Ht Hq EI GD. destruct rk_facts as (RK & LR & IL & RG & FL). pose proof (loc_glob _ (IL t q Ht Hq)) as IG. destruct (local_facts t q Ht Hq) as (full0 & full1 & con & b & EI' & EB & _). rewrite EI in EI'. injection EI' as ->.
    unfold check_quad. rewrite EB. destruct b; [eauto|]. apply (each_total d c ms P rank t num q m) with (S := @nil Z); [exact GD| |apply (st_init d P t num q m GD)].
    intros f If m1 S1 ST1. apply face_list_in in If. unfold face_check. fold (small q f). apply (halves_total d c ms P rank t num q m GD f (small q f) (-1) m1 S1 ST1).
    intros n ur I. destruct (small_cells t f q IG If n ur I) as (s & Hn & HU & _). split; [apply (owner_total t f q n IG If Hn)|]. intros u Eu. destruct (owner_total t f q u IG If (proj1 (HU u Eu))) as (p & E & _). eauto.
  Qed.
  Lemma tree_total info t : k_first _ r <= t <= k_last _ r -> tree_info d c ms rank (k_first _ r) (k_last _ r) t = Some info -> forall qs num D m, inv0 D m -> (forall q, In q qs -> In q (k_trees _ r t)) -> Forall (fun g => wf d (g_q g)) D -> NoDup (map gkey (D ++ number t num qs)) ->
    exists x, check_tree d c ms P rank info t num qs m = Some x.
  Proof.
    intros Ht EI. destruct rk_facts as (RK & LR & IL & RG & FL). induction qs as [|q qs IH]; intros num D m I Hq HW ND; cbn [check_tree number] in *; [eauto|].
    assert (Wq : wf d q) by (apply (leaf_wf d c ranks HF t q); apply loc_glob; apply IL; [exact Ht|apply Hq; left; reflexivity]).
    assert (GD : good d P t q m).
    { apply (inv0_good D); auto. rewrite Forall_forall in HW. intros g Hg. split; [apply HW; exact Hg|]. intros EK. rewrite map_app in ND. cbn [map] in ND. apply NoDup_remove_2 in ND. apply ND.
      apply in_or_app. left. change (gkey (mkgq t num q)) with (t, q). rewrite <- EK. apply in_map. exact Hg. }
    destruct (quad_total t num q info m Ht (Hq q (or_introl eq_refl)) EI GD) as ([m1|] & E1); rewrite E1; [|eauto]. destruct (quad_any d c ms P rank t num q m GD info m1 E1) as (S1 & ST1). pose proof (inv0_st _ _ _ _ _ _ _ I ST1) as I1.
    apply (IH _ (D ++ [mkgq t num q]) m1); auto.
    - intros x Hx. apply Hq. right. exact Hx.
    - apply Forall_app. split; [exact HW|]. constructor; [exact Wq|constructor].
    - rewrite <- app_assoc. exact ND.
  Qed.
  Lemma info_total t : k_first _ r <= t <= k_last _ r -> exists info, tree_info d c ms rank (k_first _ r) (k_last _ r) t = Some info.
  Proof.
    intros Ht. destruct rk_facts as (RK & LR & IL & RG & FL). pose proof rank_range as Hrank. destruct (RG ltac:(lia)) as (F0 & L1).
    destruct (forest_markers d T ranks HF HC) as (ms' & E' & Lm & MW & MI & MM & MB & ME & ONE & BND). rewrite EM in E'. injection E' as <-.
    destruct (contacts_spec d c t V ltac:(unfold T in *; lia)) as (l & EL & _). unfold tree_info.
    destruct (mp_get d ms P ltac:(lia) Lm MI rank ltac:(lia)) as (x & E & _). destruct (mp_get d ms P ltac:(lia) Lm MI (rank + 1) ltac:(lia)) as (x' & E' & _).
    rewrite E, E', EL. eauto.
  Qed.
  Lemma trees_total : forall n t num D m, inv0 D m -> k_first _ r <= t -> t + Z.of_nat n = k_last _ r + 1 -> Forall (fun g => wf d (g_q g)) D ->
    NoDup (map gkey (D ++ numbered (k_trees _ r) n t num)) -> exists x, check_trees d c ms P rank (k_first _ r) (k_last _ r) (k_trees _ r) n t num m = Some x.
  Proof.
    destruct rk_facts as (RK & LR & IL & RG & FL). induction n as [|n IH]; intros t num D m I Ht Hn HW ND; cbn [check_trees numbered] in *; [eauto|]. destruct (info_total t ltac:(lia)) as (info & EI). rewrite EI. rewrite app_assoc in ND.
    assert (ND1 : NoDup (map gkey (D ++ number t num (k_trees _ r t)))) by (rewrite map_app in ND; exact (nodup_app_l _ _ ND)). destruct (RG ltac:(lia)) as (F0 & L1).
    destruct (tree_total info t ltac:(lia) EI (k_trees _ r t) num D m I ltac:(auto) HW ND1) as ([m1|] & E1); rewrite E1; [|eauto].
    assert (I1 : inv0 (D ++ number t num (k_trees _ r t)) m1).
    { apply (tree_any info t ltac:(lia) (k_trees _ r t) num D m m1); auto. intros q Hq. apply IL; [lia|exact Hq]. }
    apply (IH _ _ (D ++ number t num (k_trees _ r t)) m1 I1); auto; try lia. apply Forall_app. split; [exact HW|]. apply Forall_forall. intros g Hg. apply in_number in Hg. destruct Hg as (_ & Hg). apply (leaf_wf d c ranks HF t). apply loc_glob. apply IL; [lia|exact Hg].
  Qed.
  Lemma send_total : exists x, check_send d c ms P rank (k_first _ r) (k_last _ r) (k_trees _ r) = Some x.
  Proof.
    destruct rk_facts as (RK & LR & IL & RG & FL). unfold check_send. destruct FL as [FL|(F1 & F2)].
    - apply (trees_total _ _ _ [] _ inv0_init); try lia; [constructor|]. cbn [app]. rewrite <- enum_numbered, enum_key, <- LR. apply (loc_nodup d T ranks HF rank r Er).
    - rewrite F1, F2. change (Z.to_nat (-2 - -1 + 1)) with 0%nat. cbn [check_trees]. eauto.
  Qed.

  (** *** balanced leaves *)
  Section Balanced.
    Hypothesis FB : face_balanced d c ranks.

    Lemma bal_use t f q nt phi : In (t, q) G -> 0 <= f < faces d -> image d c t f q nt phi ->
      forall s q', beside d q (face_obj f) s -> In (nt, q') G -> within d q' (phi s) -> Z.abs (ql q - ql q') <= 1.
    Proof.
      intros Iq Hf IM s q' B I W. destruct (leaf_wf d c ranks HF t q Iq) as (Ht & Wq). destruct (cell_here d c ranks HF t f q Iq Hf s B) as (Hs & _). destruct (proj2 IM s Hs) as (Ws & _ & SN & _).
      apply (FB t q nt q' Iq I). exists (face_obj f), s, (phi s). split; [rewrite dirs_face; cbn; lia|]. split; [exact B|]. split; [apply SN; auto|]. apply within_points; auto. apply (leaf_wf d c ranks HF nt q' I).
    Qed.

    Lemma cell_small t f q s : In (t, q) G -> 0 <= f < faces d -> beside d q (face_obj f) s -> exists n ur, In (n, ur) (small q f) /\ inbox d n s.
    Proof.
      intros Iq Hf B. destruct (leaf_wf d c ranks HF t q Iq) as (Ht & Wq). pose proof (wf_level d q Wq) as L. unfold small. change QMAXLEVEL with 29. destruct (ql q =? 29) eqn:E.
      - exists (face_neighbor d q f), None. split; [left; reflexivity|]. rewrite (face_nb d q f (q_ext d q Wq) Hf). apply (cell_here d c ranks HF t f q Iq Hf s B).
      - destruct (half_cell d q f s (q_ext d q Wq) ltac:(lia) Hf B) as (i & Hi & BI). eexists _, _. split; [|exact BI]. apply in_map_iff. exists (Z.to_nat i). rewrite Z2Nat.id by lia. split; [reflexivity|]. apply in_seq. lia.
    Qed.

    Lemma small_leaf t f q nt phi n ur : In (t, q) G -> 0 <= f < faces d -> image d c t f q nt phi -> In (n, ur) (small q f) ->
      exists p r b, zget ranks p = Some r /\ In (nt, b) (loc T r) /\ within d b (phi n).
    Proof.
      intros Iq Hf IM I. destruct (leaf_wf d c ranks HF t q Iq) as (Ht & Wq). pose proof (wf_level d q Wq) as L. pose proof (bal_use t f q nt phi Iq Hf IM) as BU. unfold small in I. change QMAXLEVEL with 29 in I. destruct (ql q =? 29) eqn:E.
      - destruct I as [I|[]]. injection I as <- <-. rewrite (face_nb d q f (q_ext d q Wq) Hf).
        destruct (cell_leaf d c ranks HF HC t f q Iq Hf nt phi IM BU _ (N_beside d c ranks HF t f q Iq Hf ltac:(lia))) as (p & r' & b & E1 & I1 & _ & _ & W & _). exists p, r', b. auto.
      - apply in_map_iff in I. destruct I as (i & EQ & Ii). injection EQ as <- <-. apply in_seq in Ii.
        destruct (half_leaf d c ranks HF HC t f q Iq Hf nt phi IM BU (Z.of_nat i) ltac:(lia) ltac:(lia)) as (p & r' & b & E1 & I1 & _ & W & _). exists p, r', b. auto.
    Qed.

    Lemma face_spec t num q m0 f : good d P t q m0 -> In (t, q) G -> 0 <= f < faces d -> forall m S, st P t num q m0 S m ->
      exists m' S', face_check d c ms P rank t num q m f = Some (Going m') /\ st P t num q m0 S' m' /\ forall p, In p S' <-> In p S \/ via d c ms P rank t q (face_obj f) p.
    Proof.
      intros GD Iq Hf m S H. destruct (leaf_wf d c ranks HF t q Iq) as (Ht & Wq). pose proof rank_range as Hrank. unfold face_check. fold (small q f).
      destruct (side_cases d c t f q V Ht Wq Hf) as [(OB & NS')|(_ & nt & phi & IM)].
      - destruct (halves_spec d c ms P rank t num q m0 GD f (small q f) (-1) m S H (or_introl eq_refl)) as (m' & S' & E & ST' & I').
        { intros n ur I. destruct (small_cells t f q Iq Hf n ur I) as (s & Hn & HU & _). exists (-1). split; [apply (bound_owner t f q n Iq Hf OB Hn)|]. split; [|lia].
          intros u Eu. apply (bound_owner t f q u Iq Hf OB). apply (HU u Eu). }
        exists m', S'. split; [exact E|]. split; [exact ST'|]. intros p. rewrite I'. split; [|intros [K|(_ & _ & s & nt & s' & B & SN & _)]; [auto|exfalso; apply (NS' s nt s'); [apply (cell_here d c ranks HF t f q Iq Hf s B)|exact SN]]].
        intros [K|(A & B & n & ur & I & EO)]; [auto|exfalso]. destruct (small_cells t f q Iq Hf n ur I) as (s & Hn & _). rewrite (bound_owner t f q n Iq Hf OB Hn) in EO. injection EO as <-. lia.
      - assert (OW : forall n ur, In (n, ur) (small q f) -> exists p r' b, zget ranks p = Some r' /\ In (nt, b) (loc T r') /\ within d b (phi n) /\
          forall u, here d f q u -> inbox d n u -> quadrant_find_owner d c ms P rank t f u = Some p /\ within d b (phi u)).
        { intros n ur I. destruct (small_leaf t f q nt phi n ur Iq Hf IM I) as (p & r' & b & E1 & I1 & W). exists p, r', b. split; [exact E1|]. split; [exact I1|]. split; [exact W|].
          destruct (small_cells t f q Iq Hf n ur I) as (s & Hn & _). intros u Hu BU. destruct (proj2 IM u Hu) as (Wu & _ & _ & _ & EO). rewrite EO.
          assert (WU : within d b (phi u)) by (apply (within_trans d _ _ _ W); apply (im_in d c t f q nt phi IM); auto). split; [|exact WU]. apply (leaf_owner d c ranks HF HC ms p r' nt b); auto. }
        destruct (halves_spec d c ms P rank t num q m0 GD f (small q f) (-1) m S H (or_introl eq_refl)) as (m' & S' & E & ST' & I').
        { intros n ur I. destruct (OW n ur I) as (p & r' & b & E1 & I1 & W & K). destruct (small_cells t f q Iq Hf n ur I) as (s & Hn & HU & _). exists p. split; [apply (K n Hn (inbox_refl d n))|]. split; [intros u Eu; destruct (HU u Eu) as (Hu & BU); apply (K u Hu BU)|].
          destruct (skipn_zget ranks p r' E1) as (R & _). fold P in R. lia. }
        exists m', S'. split; [exact E|]. split; [exact ST'|]. intros p. rewrite I'. destruct (forest_markers d T ranks HF HC) as (ms' & EM' & Lm & MW & MI & MM & MB & ME & _ & BND). rewrite EM in EM'. injection EM' as <-.
        assert (OB : forall p r' b s, zget ranks p = Some r' -> In (nt, b) (loc T r') -> here d f q s -> within d b (phi s) -> owns d ms p nt (phi s)).
        { intros p1 r1 b s E1 I1 Hs W. destruct (BND p1 r1 _ E1 I1) as (B1 & B2). cbn [fst snd] in B1, B2. destruct (proj2 IM s Hs) as (Ws & _). pose proof (qsize_pos d _ Ws) as SP. destruct W as (W1 & W2). unfold owns, tpos, tend, qend in *. lia. }
        split; (intros [K|K]; [left; exact K|right]).
        + destruct K as (P0 & PN & n & ur & I & EO). destruct (OW n ur I) as (p1 & r1 & b & E1 & I1 & W & K). destruct (small_cells t f q Iq Hf n ur I) as (s & Hn & _ & BS & IS). rewrite (proj1 (K n Hn (inbox_refl d n))) in EO. injection EO as <-.
          destruct (skipn_zget ranks p1 r1 E1) as (R & _). split; [exact R|]. split; [exact PN|]. destruct (cell_here d c ranks HF t f q Iq Hf s BS) as (Hs & _). exists s, nt, (phi s). split; [exact BS|]. split; [apply (proj2 IM s Hs); auto|].
          apply (OB p1 r1 b s); auto. apply (K s Hs IS).
        + destruct K as (P0 & PN & s & nt' & s' & BS & SN & OWN). split; [lia|]. split; [exact PN|]. destruct (cell_here d c ranks HF t f q Iq Hf s BS) as (Hs & _). apply (proj2 IM s Hs) in SN. destruct SN as (-> & ->).
          destruct (cell_small t f q s Iq Hf BS) as (n & ur & I & IS). destruct (OW n ur I) as (p1 & r1 & b & E1 & I1 & W & K). destruct (small_cells t f q Iq Hf n ur I) as (s1 & Hn & _). exists n, ur. split; [exact I|]. rewrite (proj1 (K n Hn (inbox_refl d n))). f_equal.
          destruct (skipn_zget ranks p1 r1 E1) as (R & _). apply (owner_unique d ms (zlen ranks) MM (tpos d nt (phi s))); auto. apply (OB p1 r1 b s); auto. apply (K s Hs IS).
    Qed.

    Definition sent (p : Z) (g : gq) : Prop := sent_to d c ms P rank (g_t g) (g_q g) CFace p.
    Definition inv1 (D : list gq) (m : mir) : Prop := inv0 D m /\ forall p, 0 <= p < P -> exists b, zget (m_bufs m) p = Some b /\ selects (sent p) D b.

    Lemma quad_bal t num q info m : k_first _ r <= t <= k_last _ r -> In q (k_trees _ r t) -> tree_info d c ms rank (k_first _ r) (k_last _ r) t = Some info -> good d P t q m ->
      exists m' S, check_quad d c ms P rank info t num q m = Some (Going m') /\ st P t num q m S m' /\ forall p, In p S <-> sent_to d c ms P rank t q CFace p.
    Proof.
      intros Ht Hq EI GD. destruct rk_facts as (RK & LR & IL & RG & FL). pose proof (loc_glob _ (IL t q Ht Hq)) as IG. destruct (local_facts t q Ht Hq) as (full0 & full1 & con & b & EI' & EB & SK & SP). rewrite EI in EI'. injection EI' as ->.
      unfold check_quad. rewrite EB. pose proof (st_init d P t num q m GD) as ST0. set (m1 := mkmir false (m_mirrors m) (m_bufs m) (m_offs m) (m_sum m)) in *. destruct b.
      - exists m1, []. split; [reflexivity|]. split; [exact ST0|]. intros p. split; [intros []|]. intros (Hp & N & K). destruct N. apply SK; auto.
      - destruct (each_spec d c ms P rank t num q m (fun f p => via d c ms P rank t q (face_obj f) p) (face_list d)) with (m := m1) (S := @nil Z) as (m' & S' & E & ST' & I'); [|exact ST0|].
        { intros f If. apply face_list_in in If. apply (face_spec t num q m f GD IG If). }
        exists m', S'. split; [exact E|]. split; [exact ST'|]. intros p. rewrite I'.
        rewrite SP. split; [intros [[]|K]; exact K|auto].
    Qed.

    Lemma step_bal D m t num q info : inv1 D m -> k_first _ r <= t <= k_last _ r -> In q (k_trees _ r t) -> (forall g, In g D -> wf d (g_q g) /\ gkey g <> (t, q)) -> tree_info d c ms rank (k_first _ r) (k_last _ r) t = Some info ->
      exists m', check_quad d c ms P rank info t num q m = Some (Going m') /\ inv1 (D ++ [mkgq t num q]) m'.
    Proof.
      intros (I0 & I1) Ht Hq HD EI. destruct rk_facts as (RK & LR & IL & RG & FL). pose proof (IL t q Ht Hq) as I. destruct (leaf_wf d c ranks HF t q (loc_glob _ I)) as (Rt & Wq).
      destruct (quad_bal t num q info m Ht Hq EI (inv0_good D m t q Wq I0 HD)) as (m' & S & E & ST & IFF). exists m'. split; [exact E|]. split; [apply (inv0_st _ _ _ _ _ _ _ I0 ST)|].
      intros p Hp. destruct (I1 p Hp) as (b & Eb & SB). destruct I0 as (_ & LO & _). destruct ST as (_ & _ & _ & _ & _ & _ & EV').
      destruct (zget (m_offs m) p) as [o|] eqn:Eo; [|rewrite zget_nth in Eo by lia; apply nth_error_None in Eo; unfold zlen in LO; lia].
      destruct (EV' p b o Hp Eb Eo) as (Eb' & _). eexists. split; [exact Eb'|]. apply selects_app; [exact SB|]. apply selects_one. unfold sent. cbn [g_t g_q]. rewrite memb_in. apply IFF.
    Qed.
    Lemma tree_bal info t : k_first _ r <= t <= k_last _ r -> tree_info d c ms rank (k_first _ r) (k_last _ r) t = Some info -> forall qs num D m, inv1 D m -> (forall q, In q qs -> In q (k_trees _ r t)) -> Forall (fun g => wf d (g_q g)) D -> NoDup (map gkey (D ++ number t num qs)) ->
      exists m', check_tree d c ms P rank info t num qs m = Some (Going m') /\ inv1 (D ++ number t num qs) m'.
    Proof.
      intros Ht EI. destruct rk_facts as (RK & LR & IL & RG & FL). induction qs as [|q qs IH]; intros num D m I Hq HW ND; cbn [check_tree number] in *; [exists m; rewrite app_nil_r; auto|].
      assert (Wq : wf d q) by (apply (leaf_wf d c ranks HF t q); apply loc_glob; apply IL; [exact Ht|apply Hq; left; reflexivity]).
      destruct (step_bal D m t num q info I Ht (Hq q (or_introl eq_refl))) as (m1 & E1 & I1); [|exact EI|].
      { rewrite Forall_forall in HW. intros g Hg. split; [apply HW; exact Hg|]. intros EK. rewrite map_app in ND. cbn [map] in ND. apply NoDup_remove_2 in ND. apply ND.
        apply in_or_app. left. change (gkey (mkgq t num q)) with (t, q). rewrite <- EK. apply in_map. exact Hg. }
      rewrite E1. change (D ++ mkgq t num q :: number t (num + 1) qs) with (D ++ [mkgq t num q] ++ number t (num + 1) qs). rewrite app_assoc. apply (IH _ _ m1); auto.
      - intros x Hx. apply Hq. right. exact Hx.
      - apply Forall_app. split; [exact HW|]. constructor; [exact Wq|constructor].
      - rewrite <- app_assoc. exact ND.
    Qed.
    Lemma trees_bal : forall n t num D m, inv1 D m -> k_first _ r <= t -> t + Z.of_nat n = k_last _ r + 1 -> Forall (fun g => wf d (g_q g)) D ->
      NoDup (map gkey (D ++ numbered (k_trees _ r) n t num)) -> exists m', check_trees d c ms P rank (k_first _ r) (k_last _ r) (k_trees _ r) n t num m = Some (Going m') /\ inv1 (D ++ numbered (k_trees _ r) n t num) m'.
    Proof.
      destruct rk_facts as (RK & LR & IL & RG & FL). induction n as [|n IH]; intros t num D m I Ht Hn HW ND; cbn [check_trees numbered] in *; [exists m; rewrite app_nil_r; auto|]. destruct (RG ltac:(lia)) as (F0 & L1).
      destruct (info_total t ltac:(lia)) as (info & EI). rewrite EI. rewrite app_assoc in *.
      destruct (tree_bal info t ltac:(lia) EI (k_trees _ r t) num D m I ltac:(auto) HW) as (m1 & E1 & I1); [rewrite map_app in ND; exact (nodup_app_l _ _ ND)|]. rewrite E1.
      apply (IH _ _ _ m1 I1); auto; try lia. apply Forall_app. split; [exact HW|]. apply Forall_forall. intros g Hg. apply in_number in Hg. destruct Hg as (_ & Hg). apply (leaf_wf d c ranks HF t). apply loc_glob. apply IL; [lia|exact Hg].
    Qed.

    Lemma send_bal : exists m, check_send d c ms P rank (k_first _ r) (k_last _ r) (k_trees _ r) = Some (Going m) /\ inv1 (enum 0 (loc T r)) m.
    Proof.
      destruct rk_facts as (RK & LR & IL & RG & FL). unfold check_send. rewrite LR, enum_numbered. change (numbered (k_trees _ r) (Z.to_nat (k_last _ r - k_first _ r + 1)) (k_first _ r) 0) with ([] ++ numbered (k_trees _ r) (Z.to_nat (k_last _ r - k_first _ r + 1)) (k_first _ r) 0).
      assert (IN : inv1 [] (mirror_init P)).
      { split; [apply inv0_init|]. destruct (inv_init d c ms P rank CFace) as (_ & _ & _ & _ & F); [pose proof rank_range; lia|]. intros p Hp. destruct (F p Hp) as (b & o & Eb & _ & SB & _). exists b. split; [exact Eb|exact SB]. }
      destruct FL as [FL|(F1 & F2)].
      - apply trees_bal; auto; try lia. cbn [app]. rewrite <- enum_numbered, enum_key, <- LR. apply (loc_nodup d T ranks HF rank r Er).
      - rewrite F1, F2 in *. change (Z.to_nat (-2 - -1 + 1)) with 0%nat in *. cbn [check_trees numbered app]. eauto.
    Qed.

    (** the buffers are those of p4est_ghost_new *)
    Lemma send_same : exists m mto, ghost_send d c ms P rank CFace (k_first _ r) (k_last _ r) (k_trees _ r) = Some (m, mto) /\
      exists m', check_send d c ms P rank (k_first _ r) (k_last _ r) (k_trees _ r) = Some (Going m') /\ m_bufs m' = m_bufs m.
    Proof.
      destruct (send_rank d c CFace ranks V PE PC (or_introl eq_refl) HF HC HT NS ms rank r EM Er) as (m & mto & ES & (LB & _ & _ & _ & EV) & _).
      destruct send_bal as (m' & E' & ((LB' & _) & EV')). exists m, mto. split; [exact ES|]. exists m'. split; [exact E'|]. apply zget_ext; [|unfold P in *; lia]. intros p Hp. unfold P in *. rewrite LB' in Hp.
      destruct (EV p Hp) as (b & o & Eb & _ & SB & _). destruct (EV' p Hp) as (b' & Eb' & SB'). rewrite Eb, Eb'. f_equal. apply (selects_fun _ _ _ SB' _ SB).
    Qed.
  End Balanced.
End Rank.
