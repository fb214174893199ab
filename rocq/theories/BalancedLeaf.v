(** * The check of the leaves in p4est_is_balanced *)

From Coq Require Import ZArith List Bool Lia Arith ZifyBool Sorting.Sorted.
From Verif Require Import Quad Spec Interval QuadLemmas CompareLemmas DescLemmas SearchLocal RegionLemmas Neighbor RangeBoundLemmas PropertiesRangeBound PropertiesNeighbor
  Transform PropertiesTransform Conn ConnLemmas Partition PartLemmas PartTrees PartFinal Comm CommLemmas OwnerLemmas PropertiesOwner
  Ghost GhostSpec GhostState GhostGeom GhostOut GhostSteps GhostQuad GhostLoop GhostForest GhostSym GhostTouch PropertiesGhost PropertiesGhostExchange GhostFind PropertiesGhostFind PropertiesGhostExists PropertiesGhostData
  Balanced BalancedSpec BalancedGeom BalancedImage BalancedCore BalancedSend.
Import ListNotations.
Open Scope Z_scope.

(** ** The ghosts that arrive, if all messages do *)
Lemma recv_inv bufs mine r : forall others i offset g o, ghost_recv bufs mine r i offset others = Some (g, o) -> exists incs, length others = length incs /\ joins offset incs = (g, offset :: o) /\
  forall k inc, nth_error incs k = Some inc -> exists theirs, zget bufs (i + Z.of_nat k) = Some theirs /\ zget theirs r = Some inc.
Proof.
  induction others as [|x others IH]; intros i offset g o E; cbn [ghost_recv] in E.
  - injection E as <- <-. exists []. split; [reflexivity|]. split; [reflexivity|]. intros [|k] inc H; discriminate H.
  - destruct (zget mine i) as [out|]; [|discriminate E]. destruct (zget bufs i) as [theirs|] eqn:Et; [|discriminate E]. destruct (zget theirs r) as [inc|] eqn:Ei; [|discriminate E].
    assert (E' : match ghost_recv bufs mine r (i + 1) (offset + zlen inc) others with None => None | Some (g, o) => Some (inc ++ g, (offset + zlen inc) :: o) end = Some (g, o)) by (destruct out, inc; try discriminate E; exact E). clear E.
    destruct (ghost_recv bufs mine r (i + 1) (offset + zlen inc) others) as [(g', o')|] eqn:ER; [|discriminate E']. injection E' as <- <-. destruct (IH _ _ _ _ ER) as (incs & L & J & K).
    exists (inc :: incs). split; [cbn [length]; lia|]. split; [cbn [joins]; rewrite J; reflexivity|]. intros [|k] inc' H; cbn [nth_error] in H.
    + injection H as <-. exists theirs. rewrite Z.add_0_r. auto.
    + destruct (K k inc' H) as (th & A & B). exists th. split; [|exact B]. replace (i + Z.of_nat (S k)) with (i + 1 + Z.of_nat k) by lia. exact A.
Qed.

Section Layer.
  Variables (d : dim) (T : Z) (ranks : list (rk quad)).
  Hypothesis HF : forest_ok d qid T ranks.
  Let G := glob T ranks.

  Definition honest (bufs : list (list (list gq))) : Prop := zlen bufs = zlen ranks /\
    forall p b, zget bufs p = Some b -> exists r, zget ranks p = Some r /\ zlen b = zlen ranks /\ forall p' inc, zget b p' = Some inc -> sub inc (enum 0 (loc T r)).

  Lemma layer_honest bufs rank ghosts po : honest bufs -> ghost_exchange bufs rank = Some (ghosts, po) ->
    layer_ok d T (zlen ranks) (mkgl ghosts po (tree_offsets T ghosts)) /\ forall x, In x ghosts -> In (g_t x, g_q x) G.
  Proof.
    intros (LB & HB) E. unfold ghost_exchange in E. destruct (zget bufs rank) as [mine|] eqn:Em; [|discriminate E]. destruct (ghost_recv bufs mine rank 0 0 mine) as [(g, o)|] eqn:ER; [|discriminate E]. injection E as <- <-.
    destruct (HB rank mine Em) as (r & Er & LM & _). destruct (recv_inv _ _ _ _ _ _ _ _ ER) as (incs & LI & EJ & K). destruct (joins_slice incs 0 g (0 :: o) (Z.le_refl 0) EJ) as (EG & LP & LA & SL). rewrite Z.add_0_l in LA.
    assert (LI' : zlen incs = zlen ranks) by (unfold zlen in *; lia). rewrite LI' in LA.
    assert (SUB : sub g (flat_map (fun r => enum 0 (loc T r)) ranks)).
    { rewrite EG. assert (K' : forall k inc, nth_error incs k = Some inc -> exists r', nth_error ranks k = Some r' /\ sub inc (enum 0 (loc T r'))).
      { intros k inc Hk. destruct (K k inc Hk) as (th & Et & Ei). rewrite Z.add_0_l in Et. destruct (HB _ _ Et) as (r' & Er' & _ & X). rewrite zget_nth, Nat2Z.id in Er' by lia. exists r'. split; [exact Er'|]. apply (X rank). exact Ei. }
      assert (LL : length incs = length ranks) by (unfold zlen in LI'; lia). clear - K' LL. revert ranks K' LL. induction incs as [|x incs IH]; intros [|r ranks] K LL; try discriminate LL; cbn [concat flat_map]; [constructor|].
      apply sub_app; [destruct (K 0%nat x eq_refl) as (r' & E & X); injection E as ->; exact X|]. apply IH; [|injection LL as LL; exact LL]. intros k inc Hk. apply (K (S k) inc Hk). }
    assert (KEY : map gkey (flat_map (fun r => enum 0 (loc T r)) ranks) = glob T ranks).
    { unfold glob. clear. generalize ranks as l. induction l as [|r l IH]; [reflexivity|]. cbn [flat_map]. rewrite map_app, enum_key, IH. reflexivity. }
    assert (ING : forall x, In x g -> In (g_t x, g_q x) G). { intros x Hx. unfold G. rewrite <- KEY. change (g_t x, g_q x) with (gkey x). apply in_map. apply (sub_in _ _ _ SUB Hx). }
    split; [|exact ING]. unfold layer_ok. cbn [gl_ghosts gl_po gl_to]. split; [|split; [|split]].
    - apply (sub_sorted _ _ _ SUB). apply (sorted_map gkey (fun x y => tend d (fst x) (snd x) <= tpos d (fst y) (snd y))). rewrite KEY. apply HF.
    - intros x Hx. specialize (ING x Hx). split; [apply (glob_label T ranks _ ING)|apply (proj1 (proj2 HF) _ ING)].
    - intros p Hp. destruct (zget incs p) as [inc|] eqn:Ei; [|rewrite zget_nth in Ei by lia; apply nth_error_None in Ei; unfold zlen in *; lia]. destruct (SL p inc Ei) as (a & e & Ea & Ee & Ra & _). exists a, e. split; [exact Ea|]. split; [exact Ee|]. split; [exact Ra|].
      assert (MON : forall n p a, 0 <= p -> p + Z.of_nat n = zlen ranks -> zget (0 :: o) p = Some a -> a <= zlen g).
      { induction n as [|n IHn]; intros p0 a0 H0 Hn E0; [replace p0 with (zlen ranks) in E0 by lia; rewrite LA in E0; injection E0 as <-; lia|].
        destruct (zget incs p0) as [inc0|] eqn:Ei0; [|rewrite zget_nth in Ei0 by lia; apply nth_error_None in Ei0; unfold zlen in *; lia]. destruct (SL p0 inc0 Ei0) as (a1 & e1 & Ea1 & Ee1 & Ra1 & _). rewrite E0 in Ea1. injection Ea1 as <-.
        specialize (IHn (p0 + 1) e1 ltac:(lia) ltac:(lia) Ee1). lia. }
      apply (MON (Z.to_nat (zlen ranks - (p + 1))) (p + 1) e); try lia. exact Ee.
    - intros t Ht. apply tree_offsets_get. exact Ht.
  Qed.
End Layer.

(** ** What is found *)
Section Found.
  Variables (d : dim) (c : conn) (ranks : list (rk quad)).
  Let T := c_nt c.
  Let P := zlen ranks.
  Hypothesis V : conn_is_valid d c = Some true.
  Hypothesis HT : 0 <= T.
  Hypothesis PE : 0 <= c_ne c.
  Hypothesis PC : 0 <= c_nc c.
  Hypothesis HF : forest_ok d qid T ranks.
  Hypothesis HC : covers d qid 0 (T * TREE d) (glob T ranks).
  Variable ms : list marker.
  Hypothesis EM : global_partition qid T ranks = Some ms.
  Variable bsearch : list quad -> quad -> option nat.
  Hypothesis BS : bsearch_cmp_ok d bsearch.
  Variables (rank : Z) (r : rk quad).
  Hypothesis Er : zget ranks rank = Some r.
  Variable g : glayer.
  Let G := glob T ranks.
  Local Notation E1 := (exists_one d c ms P rank bsearch (k_trees _ r) g).

  Lemma locate_true t q : layer_ok d T P g -> (forall x, In x (gl_ghosts g) -> In (g_t x, g_q x) G) -> 0 <= t < T -> wf d q ->
    exists x, locate d bsearch ms P rank (k_trees _ r) g t q = Some x /\ x_tree x = t /\ x_quad x = q /\ (x_num x <> -1 -> In (t, q) G).
  Proof.
    intros OK GG Rt W. destruct (forest_markers d T ranks HF HC) as (ms' & EM' & Lm & MW & MI & MM & MB & ME & _ & BND). rewrite EM in EM'. injection EM' as <-.
    destruct (skipn_zget ranks rank r Er) as (Hrank & SK). pose proof (qpos_range d q) as RQ. pose proof (tree_pos d) as TP.
    destruct (find_owner_spec d ms (zlen ranks) ltac:(lia) Lm MI t q rank (wf_qin d q W) Hrank) as (p & EF & Hp & Op).
    { rewrite MB, ME. unfold tpos. assert (0 <= t * TREE d) by (apply Z.mul_nonneg_nonneg; lia). assert ((t + 1) * TREE d <= T * TREE d) by (apply Z.mul_le_mono_nonneg_r; lia). lia. }
    unfold locate. fold P in EF. rewrite EF. destruct (p =? rank) eqn:EP.
    - eexists. split; [reflexivity|]. split; [reflexivity|]. split; [reflexivity|]. cbn [x_num].
      assert (ST : StronglySorted (fun x y => qend d x <= qpos d y) (k_trees _ r t)).
      { apply (loc_sorted_tree d (k_trees _ r) (Z.to_nat T) 0 t); [lia|]. pose proof (skip_sorted d qid T ranks HF (Z.to_nat rank)) as SS. rewrite SK in SS. unfold glob in SS. cbn [flat_map] in SS. fold (loc T r).
        revert SS. generalize (loc T r) as l. generalize (flat_map (loc T) (skipn (Z.to_nat (rank + 1)) ranks)) as l'. clear. induction l as [|x l IH]; intros SS; [constructor|]. cbn [app] in SS. apply StronglySorted_inv in SS. destruct SS as (SS & F). constructor; [apply IH; exact SS|].
        rewrite Forall_forall in *. intros y Hy. apply F. apply in_or_app. left. exact Hy. }
      assert (IL : forall x, In x (k_trees _ r t) <-> In (t, x) (loc T r)) by (intros x; unfold loc; rewrite in_loc_from; split; [intros; split; [lia|assumption]|tauto]).
      assert (WT : forall x, In x (k_trees _ r t) -> wf d x) by (intros x Hx; apply (proj1 (proj2 HF) (t, x)); apply (in_glob T ranks rank r _ Er); apply IL; exact Hx).
      pose proof (bsearch_spec d g bsearch BS (k_trees _ r t) q ST WT W) as B. destruct (bsearch (k_trees _ r t) q) as [i|]; [|congruence]. intros _.
      apply (in_glob T ranks rank r _ Er). apply IL. eapply nth_error_In. exact B.
    - destruct (ghost_bsearch_spec d T P g bsearch OK BS p t q (or_intror Hp) Rt W) as (i & Ei & _ & _ & X). rewrite Ei. eexists. split; [reflexivity|]. split; [reflexivity|]. split; [reflexivity|]. cbn [x_num].
      intros N. destruct (X N) as (x & Ex & <- & <- & _). apply GG. apply (zget_in _ _ _ Ex).
  Qed.

  Lemma one_true t f q nt phi n : layer_ok d T P g -> (forall x, In x (gl_ghosts g) -> In (g_t x, g_q x) G) -> In (t, q) G -> 0 <= f < faces d -> image d c t f q nt phi -> here d f q n ->
    exists b, E1 t (Some n) = Some b /\ (b = true -> In (nt, phi n) G).
  Proof.
    intros OK GG Iq Hf IM Hn. destruct (leaf_wf d c ranks HF t q Iq) as (Ht & Wq). destruct (proj2 IM n Hn) as (Wn & _ & SN & _).
    destruct (seen_list d bsearch c ms P rank (k_trees _ r) g t n V Ht PE PC (here_ext d f q n Hn)) as (L & SL & EL). unfold exists_one. rewrite EL.
    destruct (locate_all_spec d bsearch ms P rank (k_trees _ r) g (fun x => x_num x <> -1 -> In (nt, phi n) G) L) as (xs & Ex & EMp & FQ).
    { intros t' q' I. apply SL in I. apply SN in I. destruct I as (-> & ->). apply locate_true; auto. apply IM. }
    rewrite Ex. eexists. split; [reflexivity|]. intros H. apply existsb_exists in H. destruct H as (x & Ix & Hx). rewrite Forall_forall in FQ. apply (FQ x Ix). lia.
  Qed.

  (** when p4est_quadrant_exists does what C62 says *)
  Hypothesis C62 : forall t q, 0 <= t < T -> ext d q -> (forall i, axis d i -> - 2 ^ 30 <= vget (cv q) i < 2 ^ 31) ->
    exists xs, quadrant_exists d bsearch c ms P rank (k_trees _ r) g t q = Some xs /\
      (forall nt q', In (nt, q') (map (fun x => (x_tree x, x_quad x)) xs) <-> seen_as d c t q nt q') /\
      forall x, In x xs -> (x_num x <> -1 <-> In (x_tree x, x_quad x) (loc T r) \/ remote_leaf d c CFace ranks rank (-1) (x_tree x) (x_quad x)).

  Lemma one_iff t f q nt phi n s : In (t, q) (loc T r) -> 0 <= f < faces d -> image d c t f q nt phi -> here d f q n -> beside d q (face_obj f) s -> inbox d n s ->
    exists b, E1 t (Some n) = Some b /\ (b = true <-> In (nt, phi n) G).
  Proof.
    intros Il Hf IM Hn B IS. pose proof (in_glob T ranks rank r _ Er Il) as Iq. destruct (leaf_wf d c ranks HF t q Iq) as (Ht & Wq). destruct (proj2 IM n Hn) as (Wn & _ & SN & _).
    destruct (C62 t n Ht (here_ext d f q n Hn) (fun i => here_range d f q n i Hn)) as (xs & Ex & SX & K). unfold exists_one. rewrite Ex. eexists. split; [reflexivity|]. rewrite existsb_exists. split.
    - intros (x & Ix & Hx). assert (X : seen_as d c t n (x_tree x) (x_quad x)) by (apply SX; apply in_map_iff; exists x; auto). apply SN in X. destruct X as (X1 & X2).
      assert (N : x_num x <> -1) by lia. apply (K x Ix) in N. rewrite X1, X2 in N. destruct N as [N|(p & r0 & r1 & _ & E1 & _ & _ & I & _)]; [apply (in_glob T ranks rank r _ Er N)|apply (in_glob T ranks p r1 _ E1 I)].
    - intros I. assert (X : In (nt, phi n) (map (fun x => (x_tree x, x_quad x)) xs)) by (apply SX; apply SN; auto). apply in_map_iff in X. destruct X as (x & EX & Ix). injection EX as X1 X2. exists x. split; [exact Ix|].
      assert (N : x_num x <> -1); [|lia]. apply (K x Ix). rewrite X1, X2. unfold G, glob in I. apply in_flat_map in I. destruct I as (r1 & I1 & I2). apply In_nth_error in I1. destruct I1 as (p & Ep).
      destruct (Z.eq_dec (Z.of_nat p) rank) as [EP|NP]; [left; rewrite zget_nth in Er by lia; rewrite <- EP, Nat2Z.id, Ep in Er; injection Er as <-; exact I2|right].
      destruct (cell_here d c ranks HF t f q Iq Hf s B) as (Hs & _). destruct (proj2 IM s Hs) as (Ws & _ & SNs & _).
      exists (Z.of_nat p), r, r1. split; [exact Er|]. split; [rewrite zget_nth, Nat2Z.id by lia; exact Ep|]. split; [exact NP|]. split; [left; reflexivity|]. split; [exact I2|]. exists t, q. split; [exact Il|].
      exists (face_obj f), s, (phi s). split; [rewrite dirs_face; cbn; lia|]. split; [exact B|]. split; [apply SNs; auto|]. apply within_points; auto. apply (im_in d c t f q nt phi IM n s Hn Hs IS).
  Qed.
End Found.

(** ** The decision for one face *)
Lemma exists_list_spec d c ms P rank bsearch trees g t ns : forall es, exists_list d c ms P rank bsearch trees g t ns = Some es <-> Forall2 (fun n e => exists_one d c ms P rank bsearch trees g t n = Some e) ns es.
Proof.
  induction ns as [|n ns IH]; intros es; cbn [exists_list].
  - split; [intros [= <-]; constructor|intros H; inversion H; reflexivity].
  - destruct (exists_one d c ms P rank bsearch trees g t n) as [e|] eqn:E1; [|split; [discriminate|intros H; inversion H; congruence]].
    destruct (exists_list d c ms P rank bsearch trees g t ns) as [l|].
    + split; [intros [= <-]; constructor; [exact E1|apply IH; reflexivity]|]. intros H. inversion H as [|? e' ? es' H1 H2]; subst. rewrite E1 in H1. injection H1 as <-. apply IH in H2. injection H2 as <-. reflexivity.
    + split; [discriminate|]. intros H. inversion H as [|? e' ? es' H1 H2]; subst. apply IH in H2. discriminate.
Qed.

Lemma forall2_seq {B} (R : nat -> B -> Prop) : forall l s n, Forall2 R (seq s n) l <-> length l = n /\ forall i b, nth_error l i = Some b -> R (s + i)%nat b.
Proof.
  induction l as [|x l IH]; intros s [|n]; cbn [seq length].
  - split; [intros _; split; [reflexivity|intros [|i] b H; discriminate H]|constructor].
  - split; [intros H; inversion H|intros (H & _); discriminate H].
  - split; [intros H; inversion H|intros (H & _); discriminate H].
  - split.
    + intros H. inversion H as [|? ? ? ? H1 H2]; subst. apply IH in H2. destruct H2 as (L & H2). split; [lia|]. intros [|i] b E; cbn [nth_error] in E; [injection E as <-; rewrite Nat.add_0_r; exact H1|]. replace (s + S i)%nat with (S s + i)%nat by lia. apply H2. exact E.
    + intros (L & H). constructor; [rewrite <- (Nat.add_0_r s); apply H; reflexivity|]. apply IH. split; [lia|]. intros i b E. replace (S s + i)%nat with (s + S i)%nat by lia. apply (H (S i)). exact E.
Qed.
Lemma list_exists {B} (R : nat -> B -> Prop) n : (forall i, (i < n)%nat -> exists b, R i b) -> exists l, length l = n /\ forall i b, nth_error l i = Some b -> R i b.
Proof.
  induction n as [|n IH]; intros H; [exists []; split; [reflexivity|intros [|i] b E; discriminate E]|]. destruct IH as (l & L & Hl); [intros i Hi; apply H; lia|]. destruct (H n ltac:(lia)) as (b & Hb). exists (l ++ [b]). rewrite app_length. cbn [length]. split; [lia|].
  intros i x E. destruct (Nat.lt_ge_cases i n) as [C|C]; [rewrite nth_error_app1 in E by lia; auto|]. rewrite nth_error_app2 in E by lia. rewrite L in E. destruct (i - n)%nat as [|k] eqn:K; cbn [nth_error] in E; [|destruct k; discriminate E]. injection E as <-. replace i with n by lia. exact Hb.
Qed.
Lemma forall2_map {A B C} (f : A -> B) (R : B -> C -> Prop) l l' : Forall2 R (map f l) l' <-> Forall2 (fun a => R (f a)) l l'.
Proof.
  revert l'. induction l as [|x l IH]; intros l'; cbn [map]; split; intros H; inversion H; subst; constructor; auto; apply IH; assumption.
Qed.

Section Face.
  Variables (d : dim) (c : conn) (ms : list marker) (P rank : Z) (bsearch : list quad -> quad -> option nat) (trees : Z -> list quad) (g : glayer) (t : Z) (q : quad) (f : Z).
  Let h := Z.to_nat (half d).
  Local Notation E1 := (exists_one d c ms P rank bsearch trees g t).
  Definition hnb (i : nat) : option quad := if ql q =? QMAXLEVEL then None else Some (half_face_neighbor d q f (Z.of_nat i)).
  Definition dnb : option quad := if negb (Z.land (Z.shiftr (child_id d q) (f / 2)) 1 =? Z.land f 1) || (ql q =? 0) then None else Some (face_neighbor d (parent d q) f).

  Lemma all_split : all_face_neighbors d q f = map hnb (seq 0 h) ++ [Some (face_neighbor d q f); dnb].
  Proof. unfold all_face_neighbors, hnb, dnb, h. destruct (ql q =? QMAXLEVEL); reflexivity. Qed.

  Lemma face_eval : on_face_boundary d c t f q = Some false -> forall b,
    face_leaf d c ms P rank bsearch trees g t q f = Some b <-> exists hes e2 e3, length hes = h /\ (forall i e, nth_error hes i = Some e -> E1 (hnb i) = Some e) /\ E1 (Some (face_neighbor d q f)) = Some e2 /\ E1 dnb = Some e3 /\
      b = forallb (Bool.eqb (nth 0 hes false)) hes && (b2z (nth 0 hes false) + b2z e2 + b2z e3 =? 1).
  Proof.
    intros OB b. unfold face_leaf. rewrite OB, all_split.
    assert (H1 : (1 <= h)%nat) by (unfold h; clear; destruct d; cbn; lia).
    assert (K : forall hes e2 e3, length hes = h -> (if negb (forallb (Bool.eqb (nth 0 (hes ++ [e2; e3]) false)) (firstn h (hes ++ [e2; e3]))) then Some false
        else Some (b2z (nth 0 (hes ++ [e2; e3]) false) + b2z (nth h (hes ++ [e2; e3]) false) + b2z (nth (h + 1) (hes ++ [e2; e3]) false) =? 1)) =
       Some (forallb (Bool.eqb (nth 0 hes false)) hes && (b2z (nth 0 hes false) + b2z e2 + b2z e3 =? 1))).
    { intros hes e2 e3 L. rewrite (app_nth1 hes [e2; e3] false) by lia. rewrite (app_nth2 hes [e2; e3] false) by lia. rewrite (app_nth2 hes [e2; e3] false) by lia. rewrite L. rewrite Nat.sub_diag. replace (h + 1 - h)%nat with 1%nat by lia.
      rewrite firstn_app, <- L, firstn_all, Nat.sub_diag. cbn [firstn]. rewrite app_nil_r. cbn [nth]. destruct (forallb (Bool.eqb (nth 0 hes false)) hes); reflexivity. }
    split.
    - destruct (exists_list d c ms P rank bsearch trees g t (map hnb (seq 0 h) ++ [Some (face_neighbor d q f); dnb])) as [es|] eqn:E; [|discriminate]. apply exists_list_spec in E. apply Forall2_app_inv_l in E. destruct E as (hes & l2 & F1 & F2 & ->).
      inversion F2 as [|? e2 ? l3 A2 F3]; subst. inversion F3 as [|? e3 ? l4 A3 F4]; subst. inversion F4; subst. apply forall2_map in F1. apply forall2_seq in F1. destruct F1 as (L & F1). cbv zeta. fold h. rewrite K by lia. intros [= <-].
      exists hes, e2, e3. auto.
    - intros (hes & e2 & e3 & L & F1 & A2 & A3 & ->).
      replace (exists_list d c ms P rank bsearch trees g t (map hnb (seq 0 h) ++ [Some (face_neighbor d q f); dnb])) with (Some (hes ++ [e2; e3])).
      + cbv zeta. fold h. apply K. lia.
      + symmetry. apply exists_list_spec. apply Forall2_app; [apply forall2_map; apply forall2_seq; auto|]. constructor; [exact A2|]. constructor; [exact A3|constructor].
  Qed.
End Face.

Section Decide.
  Variables (d : dim) (c : conn) (ranks : list (rk quad)).
  Let T := c_nt c.
  Let P := zlen ranks.
  Hypothesis V : conn_is_valid d c = Some true.
  Hypothesis HT : 0 <= T.
  Hypothesis PE : 0 <= c_ne c.
  Hypothesis PC : 0 <= c_nc c.
  Hypothesis HF : forest_ok d qid T ranks.
  Hypothesis HC : covers d qid 0 (T * TREE d) (glob T ranks).
  Variable ms : list marker.
  Hypothesis EM : global_partition qid T ranks = Some ms.
  Variable bsearch : list quad -> quad -> option nat.
  Hypothesis BS : bsearch_cmp_ok d bsearch.
  Variables (rank : Z) (r : rk quad).
  Hypothesis Er : zget ranks rank = Some r.
  Variable g : glayer.
  Let G := glob T ranks.
  Local Notation E1 := (exists_one d c ms P rank bsearch (k_trees _ r) g).
  Local Notation FL := (face_leaf d c ms P rank bsearch (k_trees _ r) g).

  (** a check that passes *)
  Lemma leaf_true t q f : layer_ok d T P g -> (forall x, In x (gl_ghosts g) -> In (g_t x, g_q x) G) -> In (t, q) G -> 0 <= f < faces d -> FL t q f = Some true ->
    forall s t' s' q', beside d q (face_obj f) s -> seen_as d c t s t' s' -> In (t', q') G -> (forall x y z, inq d s' x y z -> inq d q' x y z) -> Z.abs (ql q - ql q') <= 1.
  Proof.
    intros OK GG Iq Hf E. destruct (leaf_wf d c ranks HF t q Iq) as (Ht & Wq). pose proof (wf_level d q Wq) as Lq.
    destruct (side_cases d c t f q V Ht Wq Hf) as [(_ & NS)|(OB & nt & phi & IM)].
    { intros s t' s' q' B SN. exfalso. apply (NS s t' s'); [|exact SN]. apply (cell_here d c ranks HF t f q Iq Hf s B). }
    apply (face_eval d c ms P rank bsearch (k_trees _ r) g t q f OB) in E. destruct E as (hes & e2 & e3 & L & F1 & A2 & A3 & EB). symmetry in EB. apply andb_true_iff in EB. destruct EB as (EA & ES).
    pose proof (fun n => one_true d c ranks V PE PC HF HC ms EM bsearch BS rank r Er g t f q nt phi n OK GG Iq Hf IM) as OT.
    assert (H1 : (0 < Z.to_nat (half d))%nat) by (clear; destruct d; cbn; lia).
    apply (found_levels d c ranks HF t f q Iq Hf nt phi IM).
    destruct (nth 0 hes false) eqn:E0; [left|destruct e2; [right; left|destruct e3; [right; right|discriminate ES]]].
    - assert (X : forall i, (i < Z.to_nat (half d))%nat -> E1 t (hnb d q f i) = Some true).
      { intros i Hi. destruct (nth_error hes i) as [e|] eqn:Ee; [|apply nth_error_None in Ee; lia]. rewrite (F1 i e Ee). rewrite forallb_forall in EA. specialize (EA e (nth_error_In _ _ Ee)). destruct e; [reflexivity|discriminate EA]. }
      assert (L29 : ql q < 29). { pose proof (X 0%nat H1) as X0. unfold hnb in X0. change QMAXLEVEL with 29 in X0. destruct (ql q =? 29) eqn:C; [discriminate X0|lia]. }
      split; [exact L29|]. intros i Hi. specialize (X (Z.to_nat i) ltac:(lia)). unfold hnb in X. change QMAXLEVEL with 29 in X. replace (ql q =? 29) with false in X by lia. rewrite Z2Nat.id in X by lia.
      destruct (half_here d c ranks HF t f q Iq Hf i L29 Hi) as (HH & _). destruct (OT _ HH) as (b & Eb & K). fold P in Eb. rewrite X in Eb. injection Eb as <-. apply K. reflexivity.
    - rewrite (face_nb d q f (q_ext d q Wq) Hf) in A2. destruct (OT _ (here_N d f q Wq Hf)) as (b & Eb & K). fold P in Eb. rewrite A2 in Eb. injection Eb as <-. apply K. reflexivity.
    - unfold dnb in A3. destruct (negb (Z.land (Z.shiftr (child_id d q) (f / 2)) 1 =? Z.land f 1) || (ql q =? 0)) eqn:C; [discriminate A3|]. assert (L0 : 0 < ql q) by lia. assert (CC : (Z.land (Z.shiftr (child_id d q) (f / 2)) 1 =? Z.land f 1) = true) by lia.
      destruct (parent_wf d q Wq L0) as (Wp & _). rewrite (face_nb d _ f (q_ext d _ Wp) Hf) in A3. destruct (pn_case d c ranks HF t f q Iq Hf L0 CC) as (HP & _). destruct (OT _ HP) as (b & Eb & K). fold P in Eb. rewrite A3 in Eb. injection Eb as <-.
      split; [exact L0|]. split; [exact CC|]. apply K. reflexivity.
  Qed.

  (** the check is always defined *)
  Lemma leaf_total t q f : layer_ok d T P g -> (forall x, In x (gl_ghosts g) -> In (g_t x, g_q x) G) -> In (t, q) G -> 0 <= f < faces d -> exists b, FL t q f = Some b.
  Proof.
    intros OK GG Iq Hf. destruct (leaf_wf d c ranks HF t q Iq) as (Ht & Wq). pose proof (wf_level d q Wq) as Lq.
    destruct (side_cases d c t f q V Ht Wq Hf) as [(OB & _)|(OB & nt & phi & IM)]; [unfold face_leaf; rewrite OB; eauto|].
    pose proof (fun n => one_true d c ranks V PE PC HF HC ms EM bsearch BS rank r Er g t f q nt phi n OK GG Iq Hf IM) as OT.
    destruct (list_exists (fun i e => E1 t (hnb d q f i) = Some e) (Z.to_nat (half d))) as (hes & L & HE).
    { intros i Hi. unfold hnb. change QMAXLEVEL with 29. destruct (ql q =? 29) eqn:C; [exists false; reflexivity|].
      destruct (half_here d c ranks HF t f q Iq Hf (Z.of_nat i) ltac:(lia) ltac:(lia)) as (HH & _). destruct (OT _ HH) as (b & Eb & _). exists b. exact Eb. }
    assert (E2 : exists e2, E1 t (Some (face_neighbor d q f)) = Some e2).
    { rewrite (face_nb d q f (q_ext d q Wq) Hf). destruct (OT _ (here_N d f q Wq Hf)) as (b & Eb & _). exists b. exact Eb. }
    assert (E3 : exists e3, E1 t (dnb d q f) = Some e3).
    { unfold dnb. destruct (negb (Z.land (Z.shiftr (child_id d q) (f / 2)) 1 =? Z.land f 1) || (ql q =? 0)) eqn:C; [exists false; reflexivity|].
      assert (L0 : 0 < ql q) by lia. assert (CC : (Z.land (Z.shiftr (child_id d q) (f / 2)) 1 =? Z.land f 1) = true) by lia. destruct (parent_wf d q Wq L0) as (Wp & _). rewrite (face_nb d _ f (q_ext d _ Wp) Hf).
      destruct (pn_case d c ranks HF t f q Iq Hf L0 CC) as (HP & _). destruct (OT _ HP) as (b & Eb & _). exists b. exact Eb. }
    destruct E2 as (e2 & A2). destruct E3 as (e3 & A3). eexists. apply (face_eval d c ms P rank bsearch (k_trees _ r) g t q f OB). exists hes, e2, e3. split; [exact L|]. split; [exact HE|]. split; [exact A2|]. split; [exact A3|reflexivity].
  Qed.

  (** a balanced leaf *)
  Hypothesis C62 : forall t q, 0 <= t < T -> ext d q -> (forall i, axis d i -> - 2 ^ 30 <= vget (cv q) i < 2 ^ 31) ->
    exists xs, quadrant_exists d bsearch c ms P rank (k_trees _ r) g t q = Some xs /\
      (forall nt q', In (nt, q') (map (fun x => (x_tree x, x_quad x)) xs) <-> seen_as d c t q nt q') /\
      forall x, In x xs -> (x_num x <> -1 <-> In (x_tree x, x_quad x) (loc T r) \/ remote_leaf d c CFace ranks rank (-1) (x_tree x) (x_quad x)).
  Hypothesis FB : face_balanced d c ranks.

  Lemma leaf_bal t q f : In (t, q) (loc T r) -> 0 <= f < faces d -> FL t q f = Some true.
  Proof.
    intros Il Hf. pose proof (in_glob T ranks rank r _ Er Il) as Iq. destruct (leaf_wf d c ranks HF t q Iq) as (Ht & Wq). pose proof (wf_level d q Wq) as Lq.
    destruct (side_cases d c t f q V Ht Wq Hf) as [(OB & _)|(OB & nt & phi & IM)]; [unfold face_leaf; rewrite OB; reflexivity|].
    apply (face_eval d c ms P rank bsearch (k_trees _ r) g t q f OB).
    pose proof (fun n s => one_iff d c ranks HF ms bsearch rank r Er g C62 t f q nt phi n s Il Hf IM) as OI.
    assert (H1 : (0 < Z.to_nat (half d))%nat) by (clear; destruct d; cbn; lia).
    destruct (list_exists (fun i e => E1 t (hnb d q f i) = Some e /\ (e = true <-> half_is d c ranks f q nt phi (Z.of_nat i))) (Z.to_nat (half d))) as (hes & L & HE).
    { intros i Hi. unfold hnb. change QMAXLEVEL with 29. destruct (ql q =? 29) eqn:C; [exists false; split; [reflexivity|]; split; [discriminate|intros (X & _); lia]|].
      destruct (half_here d c ranks HF t f q Iq Hf (Z.of_nat i) ltac:(lia) ltac:(lia)) as (HH & _ & _ & BF & BSd). destruct (OI _ _ HH BSd BF) as (b & Eb & K). exists b. split; [exact Eb|]. rewrite K. split; [intros I; split; [lia|exact I]|intros (_ & I); exact I]. }
    assert (E2 : exists e2, E1 t (Some (face_neighbor d q f)) = Some e2 /\ (e2 = true <-> equal_is d c ranks f q nt phi)).
    { rewrite (face_nb d q f (q_ext d q Wq) Hf). destruct (some_cell d c ranks HF t f q Iq Hf) as (s & B). destruct (cell_here d c ranks HF t f q Iq Hf s B) as (_ & BN & _). apply (OI _ s (here_N d f q Wq Hf) B BN). }
    assert (E3 : exists e3, E1 t (dnb d q f) = Some e3 /\ (e3 = true <-> double_is d c ranks f q nt phi)).
    { unfold dnb. destruct (negb (Z.land (Z.shiftr (child_id d q) (f / 2)) 1 =? Z.land f 1) || (ql q =? 0)) eqn:C; [exists false; split; [reflexivity|]; split; [discriminate|intros (X & Y & _); lia]|].
      assert (L0 : 0 < ql q) by lia. assert (CC : (Z.land (Z.shiftr (child_id d q) (f / 2)) 1 =? Z.land f 1) = true) by lia. destruct (parent_wf d q Wq L0) as (Wp & _). rewrite (face_nb d _ f (q_ext d _ Wp) Hf).
      destruct (pn_case d c ranks HF t f q Iq Hf L0 CC) as (HP & _ & BP). destruct (some_cell d c ranks HF t f q Iq Hf) as (s & B). destruct (cell_here d c ranks HF t f q Iq Hf s B) as (_ & BN & _).
      destruct (OI _ s HP B (inbox_trans d _ _ _ BP BN)) as (b & Eb & K). exists b. split; [exact Eb|]. rewrite K. unfold double_is. tauto. }
    destruct E2 as (e2 & A2 & K2). destruct E3 as (e3 & A3 & K3). exists hes, e2, e3. split; [exact L|]. split; [intros i e Ee; apply (HE i e Ee)|]. split; [exact A2|]. split; [exact A3|]. symmetry.
    assert (HB : forall b : bool, (forall i : Z, 0 <= i < half d -> if b then half_is d c ranks f q nt phi i else ~ half_is d c ranks f q nt phi i) -> nth 0 hes false = b /\ forallb (Bool.eqb b) hes = true).
    { intros b Hb. assert (X : forall i e, nth_error hes i = Some e -> e = b).
      { intros i e Ee. destruct (HE i e Ee) as (_ & IFF). assert (i < length hes)%nat by (apply nth_error_Some; congruence). specialize (Hb (Z.of_nat i) ltac:(lia)). destruct b; [apply IFF; exact Hb|]. destruct e; [exfalso; apply Hb; apply IFF; reflexivity|reflexivity]. }
      split; [apply (X 0%nat); apply nth_error_nth'; lia|]. apply forallb_forall. intros e Ie. apply In_nth_error in Ie. destruct Ie as (i & Ee). rewrite (X i e Ee). apply eqb_reflx. }
    destruct (one_holds d c ranks HF HC t f q Iq Hf nt phi IM (bal_use d c ranks HF FB t f q nt phi Iq Hf IM)) as [((L29 & HA) & NE & ND)|[(NH & YE & ND)|(NH & NE & YD)]].
    - destruct (HB true) as (H0 & HAll); [intros i Hi; split; auto|]. rewrite H0, HAll. destruct e2; [exfalso; apply NE; apply K2; reflexivity|]. destruct e3; [exfalso; apply ND; apply K3; reflexivity|]. reflexivity.
    - destruct (HB false NH) as (H0 & HAll). rewrite H0, HAll. apply K2 in YE. subst e2. destruct e3; [exfalso; apply ND; apply K3; reflexivity|]. reflexivity.
    - destruct (HB false NH) as (H0 & HAll). rewrite H0, HAll. apply K3 in YD. subst e3. destruct e2; [exfalso; apply NE; apply K2; reflexivity|]. reflexivity.
  Qed.
End Decide.
