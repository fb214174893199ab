(** * The reduced representation, its completion and the merge with the old leaves *)

From Coq Require Import ZArith List Bool Lia ZifyBool Sorting.Sorted Arith.Wf_nat.
From Verif Require Import Quad Spec Interval QuadLemmas CompareLemmas DescLemmas SuccLemmas RegionLemmas SearchLocal TreeLemmas Tiles Search Adapt Balance BalanceBasics BalanceFill PropertiesSearch PropertiesBits.
Import ListNotations.
Open Scope Z_scope.

Lemma ss_insert {T} (R : T -> T -> Prop) u l1 l2 : StronglySorted R (l1 ++ l2) -> (forall x, In x l1 -> R x u) -> (forall x, In x l2 -> R u x) ->
  StronglySorted R (l1 ++ u :: l2).
Proof.
  induction l1 as [|y l1 IH]; cbn [app]; intros S H1 H2.
  - constructor; [exact S|]. apply Forall_forall. exact H2.
  - inversion S as [|? ? S' F]. constructor; [apply IH; auto; intros; apply H1; right; auto|]. rewrite Forall_forall in *.
    intros x Hx. apply in_app_or in Hx. destruct Hx as [Hx|[<-|Hx]]; [apply F; apply in_or_app; auto|apply H1; left; reflexivity|apply F; apply in_or_app; auto].
Qed.

Lemma nth_firstn_lt {T} (l : list T) n x : In x (firstn n l) -> exists i, (i < n)%nat /\ nth_error l i = Some x.
Proof.
  revert n. induction l as [|y l IH]; intros [|n] H; cbn [firstn] in H; try (destruct H; fail).
  destruct H as [<-|H]; [exists 0%nat; split; [lia|reflexivity]|]. destruct (IH n H) as (i & Hi & E). exists (S i). split; [lia|exact E].
Qed.
Lemma nth_skipn_ge {T} (l : list T) n x : In x (skipn n l) -> exists i, (n <= i)%nat /\ nth_error l i = Some x.
Proof.
  revert n. induction l as [|y l IH]; intros [|n] H; cbn [skipn] in H; try (destruct H; fail).
  - apply In_nth_error in H. destruct H as (i & E). exists i. split; [lia|exact E].
  - destruct (IH n H) as (i & Hi & E). exists (S i). split; [lia|exact E].
Qed.
Lemma ss_nth {T} (R : T -> T -> Prop) l : StronglySorted R l -> forall i j x y, (i < j)%nat -> nth_error l i = Some x -> nth_error l j = Some y -> R x y.
Proof.
  induction 1 as [|a l S IH F]; intros i j x y Hij Hx Hy; [destruct i; discriminate|].
  destruct j as [|j]; [lia|]. cbn [nth_error] in Hy. destruct i as [|i]; cbn [nth_error] in Hx.
  - injection Hx as <-. rewrite Forall_forall in F. apply F. eapply nth_error_In; eauto.
  - apply (IH i j x y); auto. lia.
Qed.

Section C.
  Variable d : dim.
  Notation inn w q := (qpos d w <= qpos d q /\ qend d q <= qend d w).
  Definition sin (w q : quad) : Prop := inn w q /\ ql w < ql q.

  (** ** The test for overlapping parents *)
  Lemma nca_parents p q : wf d p -> wf d q -> 0 < ql p -> 0 < ql q ->
    if ql (nearest_common_ancestor d p q) >=? Z.min (ql q) (ql p) - 1
    then if ql p >? ql q then inn (parent d q) (parent d p) else inn (parent d p) (parent d q)
    else qend d (parent d q) <= qpos d (parent d p) \/ qend d (parent d p) <= qpos d (parent d q).
  Proof.
    intros Wp Wq Lp Lq. destruct (nca_spec d p q Wp Wq) as (Wa & Ip & Iq & MIN). cbv zeta in *. set (a := nearest_common_ancestor d p q) in *.
    destruct (parent_wf d p Wp Lp) as (Wpp & Lpp & _). destruct (parent_wf d q Wq Lq) as (Wpq & Lpq & _).
    pose proof (parent_inn d p Wp Lp) as Jp. pose proof (parent_inn d q Wq Lq) as Jq. pose proof (size_pos d p Wp) as Sp. pose proof (size_pos d q Wq) as Sq.
    destruct (ql a >=? Z.min (ql q) (ql p) - 1) eqn:E.
    - destruct (ql p >? ql q) eqn:G.
      + assert (I : inn (parent d q) a) by (apply (nested_pt d (parent d q) a (qpos d q)); auto; lia).
        apply (inn_parent d (parent d q) p); auto; lia.
      + assert (I : inn (parent d p) a) by (apply (nested_pt d (parent d p) a (qpos d p)); auto; lia).
        apply (inn_parent d (parent d p) q); auto; lia.
    - destruct (Z_le_dec (ql (parent d q)) (ql (parent d p))) as [X|X].
      + destruct (nested d (parent d q) (parent d p) Wpq Wpp X) as [Y|[Y|Y]]; [|lia|lia].
        destruct (MIN (parent d q) Wpq ltac:(lia) ltac:(lia) ltac:(lia) ltac:(lia)) as (M1 & M2). pose proof (inn_level d (parent d q) a Wpq Wa (conj M1 M2)). lia.
      + destruct (nested d (parent d p) (parent d q) Wpp Wpq ltac:(lia)) as [Y|[Y|Y]]; [|lia|lia].
        destruct (MIN (parent d p) Wpp ltac:(lia) ltac:(lia) ltac:(lia) ltac:(lia)) as (M1 & M2). pose proof (inn_level d (parent d p) a Wpp Wa (conj M1 M2)). lia.
  Qed.

  (** ** reduce *)
  Definition reps (l R : list quad) : Prop :=
    (forall r, In r R -> exists p, In p l /\ r = sibling d p 0) /\
    (forall p, In p l -> exists r, In r R /\ inn (parent d p) (parent d r)) /\
    StronglySorted (fun r s => qend d (parent d r) <= qpos d (parent d s)) R.

  Lemma sib0 p : wf d p -> 0 < ql p -> wf d (sibling d p 0) /\ ql (sibling d p 0) = ql p /\ parent d (sibling d p 0) = parent d p /\
    child_id d (sibling d p 0) = 0 /\ qpos d (sibling d p 0) = qpos d (parent d p).
  Proof.
    intros W L. pose proof (children_nonneg d). destruct (sibling_pos d p 0 W L ltac:(lia)) as (A & B & C & D & E). repeat (split; [assumption|]). lia.
  Qed.

  Lemma reduce_loop_spec l : forall q0, wf d q0 -> 0 < ql q0 -> Forall (fun p => wf d p /\ 0 < ql p) l -> StronglySorted (before d) (q0 :: l) ->
    reps (q0 :: l) (reduce_loop d (sibling d q0 0) l) /\ forall r, In r (reduce_loop d (sibling d q0 0) l) -> qpos d (parent d q0) <= qpos d (parent d r).
  Proof.
    induction l as [|p l IH]; intros q0 W0 L0 F S; destruct (sib0 q0 W0 L0) as (Ws & Ls & Ps & Cs & Qs).
    - cbn [reduce_loop]. split; [|intros r [<-|[]]; rewrite Ps; lia]. split; [|split].
      + intros r [<-|[]]. exists q0. split; [left|]; reflexivity.
      + intros p [<-|[]]. exists (sibling d q0 0). split; [left; reflexivity|]. rewrite Ps. lia.
      + constructor; constructor.
    - inversion F as [|? ? (Wp & Lp) F']. subst. inversion S as [|? ? S' FB]. subst. inversion FB as [|? ? B0 FB']. subst. unfold before in B0.
      pose proof (nca_parents p (sibling d q0 0) Wp Ws Lp ltac:(lia)) as N. cbn [reduce_loop]. rewrite Ps in N.
      pose proof (parent_inn d p Wp Lp) as Jp. pose proof (parent_inn d q0 W0 L0) as Jq. pose proof (size_pos d p Wp) as Sp. pose proof (size_pos d q0 W0) as Sq.
      destruct (ql (nearest_common_ancestor d p (sibling d q0 0)) >=? Z.min (ql (sibling d q0 0)) (ql p) - 1) eqn:E.
      + destruct (ql p >? ql (sibling d q0 0)) eqn:EG.
        * destruct (IH p Wp Lp F' S') as ((A & B & C) & M). split; [|intros r Hr; specialize (M r Hr); lia]. split; [|split; [|exact C]].
          -- intros r Hr. destruct (A r Hr) as (x & Hx & ->). exists x. split; [right; exact Hx|reflexivity].
          -- intros x [<-|Hx]; [|apply B; exact Hx]. destruct (B p (or_introl eq_refl)) as (r & Hr & Ir). exists r. split; [exact Hr|]. lia.
        * assert (S2 : StronglySorted (before d) (q0 :: l)). { inversion S'. constructor; assumption. }
          destruct (IH q0 W0 L0 F' S2) as ((A & B & C) & M). split; [|exact M]. split; [|split; [|exact C]].
          -- intros r Hr. destruct (A r Hr) as (x & Hx & ->). exists x. split; [|reflexivity]. destruct Hx as [<-|Hx]; [left; reflexivity|right; right; exact Hx].
          -- intros x [<-|[<-|Hx]]; [apply B; left; reflexivity| |apply B; right; exact Hx].
             destruct (B q0 (or_introl eq_refl)) as (r & Hr & Ir). exists r. split; [exact Hr|]. lia.
      + assert (N' : qend d (parent d q0) <= qpos d (parent d p)) by lia. clear N.
        destruct (IH p Wp Lp F' S') as ((A & B & C) & M). split.
        * split; [|split].
          -- intros r [<-|Hr]; [exists q0; split; [left|]; reflexivity|]. destruct (A r Hr) as (x & Hx & ->). exists x. split; [right; exact Hx|reflexivity].
          -- intros x [<-|Hx]; [exists (sibling d q0 0); split; [left; reflexivity|rewrite Ps; lia]|]. destruct (B x Hx) as (r & Hr & Ir). exists r. split; [right; exact Hr|exact Ir].
          -- constructor; [exact C|]. apply Forall_forall. intros r Hr. specialize (M r Hr). rewrite Ps. lia.
        * intros r [<-|Hr]; [rewrite Ps; lia|]. specialize (M r Hr). lia.
  Qed.

  Lemma reduce_spec l : Forall (fun p => wf d p /\ 0 < ql p) l -> StronglySorted (before d) l -> reps l (reduce d l).
  Proof.
    destruct l as [|p l]; intros F S; cbn [reduce].
    - split; [intros r []|]. split; [intros r []|constructor].
    - inversion F as [|? ? (W & L) F']. apply (reduce_loop_spec l p W L F' S).
  Qed.

  (** ** The kernel without balance *)
  Variable dom : quad.
  Hypothesis Wd : wf d dom.
  Hypothesis Ld : ql dom < 29.
  Notation ml := (minlevel dom).
  Variables f l : quad.
  Hypothesis Wf : wf d f.
  Hypothesis Wl : wf d l.
  Hypothesis Lf : ql f = 29.
  Hypothesis Ll : ql l = 29.
  Hypothesis If : inn dom f.
  Hypothesis Il : inn dom l.
  Hypothesis FL : qpos d f <= qpos d l.

  Definition fdq := raise d dom 0 f.
  Definition ldq := raise d dom (children d - 1) l.
  Definition uq := sibling d fdq 0.
  Definition vq := sibling d ldq 0.

  Lemma fdq_spec : wf d fdq /\ ml <= ql fdq /\ inn dom fdq /\ qpos d fdq = qpos d f /\ (ql fdq = ml \/ child_id d fdq <> 0).
  Proof.
    pose proof (ml_pos d dom Wd Ld). destruct (raise_spec d dom Wd Ld 0 (Z.to_nat (ql f - ml)) f Wf ltac:(lia) If ltac:(lia)) as (A & B & C & D & E & _ & G).
    fold (raise d dom 0 f) in *. fold fdq in *. split; [exact A|]. split; [lia|]. split; [exact D|]. split; [auto|exact G].
  Qed.
  Lemma ldq_spec : wf d ldq /\ ml <= ql ldq /\ inn dom ldq /\ qend d ldq = qend d l /\ (ql ldq = ml \/ child_id d ldq <> children d - 1).
  Proof.
    pose proof (ml_pos d dom Wd Ld). destruct (raise_spec d dom Wd Ld (children d - 1) (Z.to_nat (ql l - ml)) l Wl ltac:(lia) Il ltac:(lia)) as (A & B & C & D & _ & E & G).
    fold (raise d dom (children d - 1) l) in *. fold ldq in *. split; [exact A|]. split; [lia|]. split; [exact D|]. split; [auto|exact G].
  Qed.

  Definition okl (L : list quad) : Prop := StronglySorted (le d) L /\ forall q, In q L -> wf d q /\ inn dom q /\ ml <= ql q /\ qpos d q < qend d l.

  Lemma ss_cmp L : okl L -> Forall (quad32 d) L /\ StronglySorted (fun x y => compare d x y <= 0) L.
  Proof.
    intros (S & H). split; [apply Forall_forall; intros q Hq; apply wf_quad32; apply H; exact Hq|].
    induction S as [|q L S IH F]; constructor.
    - apply IH. intros; apply H; right; auto.
    - rewrite Forall_forall in *. intros x Hx. apply compare_le; [apply H; left; reflexivity|apply H; right; exact Hx|]. apply F; exact Hx.
  Qed.

  Lemma compare_lt a b : wf d a -> wf d b -> (compare d a b < 0 <-> le d a b /\ ~ le d b a).
  Proof. intros Wa Wb. destruct (compare_wf d a b Wa Wb) as (A & _). rewrite A. unfold le. lia. Qed.
  Lemma compare_ge a b : wf d a -> wf d b -> (compare d a b >= 0 <-> le d b a).
  Proof. intros Wa Wb. pose proof (compare_lt a b Wa Wb) as A. unfold le in *. lia. Qed.

  Lemma lower L u : okl L -> wf d u -> exists r, find_lower_bound d L u 0 = Some r /\
    match r with
    | None => forall x, In x L -> le d x u
    | Some g => exists x, nth_error L g = Some x /\ le d u x /\ (forall y, In y (firstn g L) -> le d y u /\ ~ le d u y) /\ (forall y, In y (skipn g L) -> le d x y)
    end.
  Proof.
    intros O W. destruct (ss_cmp L O) as (Q & SC). destruct O as (S & H).
    destruct (C13_lower_bound d L u 0 Q (wf_quad32 d u W) SC ltac:(destruct L; cbn; auto; left; lia)) as (r & E & HR). exists r. split; [exact E|].
    destruct r as [g|].
    - destruct HR as ((x & Ex & Cx) & HB). exists x. split; [exact Ex|]. assert (Wx : wf d x) by (apply H; eapply nth_error_In; eauto).
      split; [apply compare_ge; auto|]. split.
      + intros y Hy. destruct (nth_firstn_lt _ _ _ Hy) as (i & Hi & Ey). specialize (HB i y Hi Ey). apply compare_lt in HB; auto. apply H. eapply nth_error_In; eauto.
      + intros y Hy. destruct (nth_skipn_ge _ _ _ Hy) as (i & Hi & Ey). destruct (Nat.eq_dec i g) as [->|N]; [assert (x = y) by congruence; subst; right; lia|].
        apply (ss_nth _ _ S g i x y); auto. lia.
    - intros x Hx. specialize (HR x Hx). apply compare_lt in HR; auto; [apply HR|apply H; exact Hx].
  Qed.

  Lemma higher L u : okl L -> wf d u -> exists r, find_higher_bound d L u 0 = Some r /\
    match r with
    | None => forall x, In x L -> ~ le d x u
    | Some g => exists x, nth_error L g = Some x /\ le d x u /\ (forall y, In y (firstn (g + 1) L) -> le d y x) /\ (forall y, In y (skipn (g + 1) L) -> ~ le d y u)
    end.
  Proof.
    intros O W. destruct (ss_cmp L O) as (Q & SC). destruct O as (S & H).
    destruct (C13_higher_bound d L u 0 Q (wf_quad32 d u W) SC ltac:(destruct L; cbn; auto; left; lia)) as (r & E & HR). exists r. split; [exact E|].
    destruct r as [g|].
    - destruct HR as ((x & Ex & Cx) & HB). exists x. split; [exact Ex|]. assert (Wx : wf d x) by (apply H; eapply nth_error_In; eauto).
      split; [apply compare_le; auto|]. split.
      + intros y Hy. destruct (nth_firstn_lt _ _ _ Hy) as (i & Hi & Ey). destruct (Nat.eq_dec i g) as [->|N]; [assert (x = y) by congruence; subst; right; lia|].
        apply (ss_nth _ _ S i g y x); auto. lia.
      + intros y Hy. destruct (nth_skipn_ge _ _ _ Hy) as (i & Hi & Ey). specialize (HB i y ltac:(lia) Ey). apply compare_gt in HB; auto. apply H. eapply nth_error_In; eauto.
    - intros x Hx. specialize (HR x Hx). apply compare_gt in HR; auto. apply H; exact Hx.
  Qed.

  Lemma okl_insert L l1 l2 u : okl L -> L = l1 ++ l2 -> wf d u -> inn dom u -> ml <= ql u -> qpos d u < qend d l ->
    (forall x, In x l1 -> le d x u) -> (forall x, In x l2 -> le d u x) -> okl (l1 ++ u :: l2).
  Proof.
    intros (S & H) -> W I M P H1 H2. split; [apply ss_insert; auto|]. intros q Hq. apply in_app_or in Hq. destruct Hq as [Hq|[<-|Hq]].
    - apply H. apply in_or_app; auto.
    - auto.
    - apply H. apply in_or_app; auto.
  Qed.

  Lemma uq_spec : wf d uq /\ ql uq = ql fdq /\ parent d uq = parent d fdq /\ qpos d uq = qpos d (parent d fdq) /\ inn dom uq /\ qpos d uq <= qpos d f /\ inn dom (parent d fdq).
  Proof.
    pose proof (ml_pos d dom Wd Ld) as M. destruct fdq_spec as (W & L & I & P & _). destruct (sib0 fdq W ltac:(lia)) as (A & B & C & D & E). fold uq in *.
    pose proof (parent_inn d fdq W ltac:(lia)). pose proof (parent_inn d uq A ltac:(lia)) as J. rewrite C in J. pose proof (inn_parent d dom fdq Wd W I ltac:(unfold minlevel in *; lia)).
    repeat (split; [assumption|]). split; [lia|]. lia.
  Qed.
  Lemma vq_spec : wf d vq /\ ql vq = ql ldq /\ parent d vq = parent d ldq /\ qpos d vq = qpos d (parent d ldq) /\ inn dom vq /\ qpos d vq <= qpos d l /\ inn (parent d ldq) l /\ inn dom (parent d ldq).
  Proof.
    pose proof (ml_pos d dom Wd Ld) as M. destruct ldq_spec as (W & L & I & P & _). destruct (sib0 ldq W ltac:(lia)) as (A & B & C & D & E). fold vq in *.
    pose proof (parent_inn d ldq W ltac:(lia)) as JL. pose proof (parent_inn d vq A ltac:(lia)) as J. rewrite C in J. pose proof (inn_parent d dom ldq Wd W I ltac:(unfold minlevel in *; lia)).
    assert (X : inn (parent d ldq) l). { destruct (parent_wf d ldq W ltac:(lia)) as (Wp & Lp & _). apply (nested_pt d (parent d ldq) l (qpos d l)); auto; pose proof (wf_level d ldq W); pose proof (size_pos d l Wl); pose proof (size_pos d ldq W); try lia.
      assert (inn ldq l) by (apply (nested_pt d ldq l (qend d l - 1)); auto; lia). lia. }
    repeat (split; [assumption|]). split; [lia|]. split; [lia|]. split; [exact X|]. lia.
  Qed.

  Lemma add_first_spec R : okl R -> exists R1, add_first d dom R (Some f) = Some (R1, fdq) /\ okl R1 /\
    (forall r, In r R1 -> In r R \/ r = uq) /\ (forall r, In r R -> In r R1) /\ ((exists r, In r R /\ sin (parent d uq) r) -> R1 = R).
  Proof.
    intros O. pose proof (ml_pos d dom Wd Ld) as M. destruct fdq_spec as (Wfd & Mfd & Ifd & Pfd & _). destruct uq_spec as (Wu & Lu & Pu & Qu & Iu & LEu & Ipu).
    unfold add_first. fold fdq. fold uq. pose proof (size_pos d l Wl) as Sl.
    destruct (parent_wf d uq Wu ltac:(lia)) as (Wpu & Lpu & _). rewrite <- Pu in Qu. rewrite <- Pu in Ipu.
    destruct (lower R uq O Wu) as (r & E & HR). rewrite E. destruct r as [g|].
    - destruct HR as (x & Ex & Lx & HB & HA). rewrite Ex. assert (Hx : In x R) by (eapply nth_error_In; eauto). destruct O as (S & H). destruct (H x Hx) as (Wx & _).
      destruct (nca_spec d uq x Wu Wx) as (Wa & I1 & I2 & MIN). cbv zeta in *. set (a := nearest_common_ancestor d uq x) in *.
      destruct (ql a <? ql uq - 1) eqn:EQ.
      + eexists. split; [reflexivity|]. unfold insert_at.
        assert (O' : okl (firstn g R ++ uq :: skipn g R)).
        { eapply okl_insert; [split; [exact S|exact H]|symmetry; apply firstn_skipn|assumption|assumption|lia|lia| |].
          - intros y Hy. apply HB; exact Hy.
          - intros y Hy. apply (le_trans d uq x y); auto. }
        split; [exact O'|]. split.
        { intros r Hr. apply in_app_or in Hr. destruct Hr as [Hr|[<-|Hr]]; [left|right; reflexivity|left]; rewrite <- (firstn_skipn g R); apply in_or_app; auto. }
        split.
        { intros r Hr. rewrite <- (firstn_skipn g R) in Hr. apply in_app_or in Hr. apply in_or_app. destruct Hr; [left; auto|right; right; auto]. }
        intros (r & Hr & (Ir & Lr)). exfalso. assert (Wr : wf d r) by (apply H; exact Hr).
        assert (LE : le d x r).
        { rewrite <- (firstn_skipn g R) in Hr. apply in_app_or in Hr. destruct Hr as [Hr|Hr]; [|apply HA; exact Hr]. exfalso. apply (proj2 (HB r Hr)). unfold le. lia. }
        unfold le in LE, Lx. pose proof (size_pos d r Wr). pose proof (size_pos d x Wx).
        assert (IX : inn (parent d uq) x).
        { destruct (Z_le_dec (ql (parent d uq)) (ql x)) as [Y|Y]; [apply (nested_pt d (parent d uq) x (qpos d x)); auto; lia|]. 
          assert (J : inn x (parent d uq)) by (apply (nested_pt d x (parent d uq) (qpos d x)); auto; lia). lia. }
        pose proof (parent_inn d uq Wu ltac:(lia)) as Ju.
        pose proof (MIN (parent d uq) Wpu ltac:(lia) ltac:(lia) ltac:(lia) ltac:(lia)) as J. pose proof (inn_level d (parent d uq) a Wpu Wa J). lia.
      + exists R. split; [reflexivity|]. split; [split; auto|]. auto.
    - exists (R ++ [uq]). split; [reflexivity|]. destruct O as (S & H). split.
      { apply (okl_insert R R []); [split; auto|symmetry; apply app_nil_r|assumption|assumption|lia|lia|exact HR|intros x []]. }
      split; [intros r Hr; apply in_app_or in Hr; destruct Hr as [Hr|[<-|[]]]; auto|]. split; [intros r Hr; apply in_or_app; auto|].
      intros (r & Hr & (Ir & Lr)). exfalso. specialize (HR r Hr). destruct (H r Hr) as (Wr & _). unfold le in HR.
      assert (EQ : qpos d r = qpos d uq /\ ql r <= ql uq) by lia. assert (EQ' : r = uq) by (apply (quad_eq d); auto; lia).
      (* the search found nothing, so r is less than uq *)
      destruct (ss_cmp R (conj S H)) as (Q & SC). destruct (C13_lower_bound d R uq 0 Q (wf_quad32 d uq Wu) SC ltac:(destruct R; cbn; auto; left; lia)) as (r' & E' & HR').
      rewrite E in E'. injection E' as <-. specialize (HR' r Hr). apply compare_lt in HR'; auto. destruct HR' as (_ & HR'). apply HR'. subst r. right. lia.
  Qed.

  Lemma add_last_spec R : okl R -> R <> [] -> exists R1, add_last d dom R (Some l) = Some R1 /\ okl R1 /\
    (forall r, In r R1 -> In r R \/ r = vq) /\ (forall r, In r R -> In r R1) /\ ((exists r, In r R /\ sin (parent d vq) r) -> R1 = R).
  Proof.
    intros O NN. pose proof (ml_pos d dom Wd Ld) as M. destruct ldq_spec as (Wld & Mld & Ild & Pld & _). destruct vq_spec as (Wv & Lv & Pv & Qv & Iv & LEv & Ilv & Ipv).
    unfold add_last. fold ldq. fold vq. pose proof (size_pos d l Wl) as Sl.
    destruct (parent_wf d vq Wv ltac:(lia)) as (Wpv & Lpv & _). rewrite <- Pv in Qv. rewrite <- Pv in Ipv. rewrite <- Pv in Ilv.
    assert (BL : forall x, In x R -> le d x l).
    { intros x Hx. destruct O as (_ & H). destruct (H x Hx) as (Wx & _ & _ & Px). pose proof (wf_level d x Wx). unfold le. pose proof (size_pos d x Wx).
      destruct (nested d x l Wx Wl ltac:(lia)) as [Y|[Y|Y]]; lia. }
    destruct (higher R l O Wl) as (r & E & HR). rewrite E. destruct r as [g|].
    2:{ exfalso. destruct R as [|x R']; [congruence|]. apply (HR x (or_introl eq_refl)). apply BL. left; reflexivity. }
    destruct HR as (x & Ex & Lx & HB & HA). rewrite Ex. assert (Hx : In x R) by (eapply nth_error_In; eauto). destruct O as (S & H). destruct (H x Hx) as (Wx & _).
    assert (SK : skipn (g + 1) R = []). { destruct (skipn (g + 1) R) as [|y s] eqn:ES; [reflexivity|exfalso]. apply (HA y (or_introl eq_refl)). apply BL. rewrite <- (firstn_skipn (g + 1) R), ES. apply in_or_app. right; left; reflexivity. }
    destruct (nca_spec d l x Wl Wx) as (Wa & I1 & I2 & MIN). cbv zeta in *. set (a := nearest_common_ancestor d l x) in *. pose proof (size_pos d x Wx) as Sx.
    assert (INX : inn (parent d vq) x -> ql a >= ql vq - 1).
    { intros J. pose proof (MIN (parent d vq) Wpv ltac:(lia) ltac:(lia) ltac:(lia) ltac:(lia)) as J'. pose proof (inn_level d (parent d vq) a Wpv Wa J'). lia. }
    destruct (ql a <? ql vq - 1) eqn:EQ.
    - eexists. split; [reflexivity|]. unfold insert_at.
      assert (LXV : le d x vq).
      { unfold le in *. destruct (Z_le_dec (ql x) (ql (parent d vq))) as [Y|Y].
        - destruct (nested d x (parent d vq) Wx Wpv Y) as [Z|[Z|Z]]; lia.
        - destruct (nested d (parent d vq) x Wpv Wx ltac:(lia)) as [Z|[Z|Z]]; [specialize (INX Z); lia|lia|lia]. }
      split.
      { eapply okl_insert; [split; [exact S|exact H]|symmetry; apply firstn_skipn|assumption|assumption|lia|lia| |].
        - intros y Hy. apply (le_trans d y x vq); auto.
        - rewrite SK. intros y []. }
      split.
      { intros r Hr. apply in_app_or in Hr. destruct Hr as [Hr|[<-|Hr]]; [left|right; reflexivity|left]; rewrite <- (firstn_skipn (g + 1) R); apply in_or_app; auto. }
      split.
      { intros r Hr. rewrite <- (firstn_skipn (g + 1) R) in Hr. apply in_app_or in Hr. apply in_or_app. destruct Hr; [left; auto|right; right; auto]. }
      intros (r & Hr & (Ir & Lr)). exfalso. destruct (H r Hr) as (Wr & _). pose proof (size_pos d r Wr).
      assert (LE : le d r x). { apply HB. rewrite <- (firstn_skipn (g + 1) R), SK, app_nil_r in Hr. exact Hr. }
      unfold le in LE, Lx. assert (IX : inn (parent d vq) x).
      { destruct (Z_le_dec (ql (parent d vq)) (ql x)) as [Y|Y]; [apply (nested_pt d (parent d vq) x (qpos d x)); auto; lia|].
        assert (J : inn x (parent d vq)) by (apply (nested_pt d x (parent d vq) (qpos d x)); auto; lia). lia. }
      specialize (INX IX). lia.
    - exists R. split; [reflexivity|]. split; [split; auto|]. auto.
  Qed.

  Lemma sentinel_spec : exists sent, sentinel d dom (Some l) = Some sent /\
    match sent with None => qend d l = qend d dom | Some s => wf d s /\ ql s = 29 /\ qpos d s = qend d l /\ qend d l < qend d dom end.
  Proof.
    pose proof (ml_pos d dom Wd Ld) as M. unfold minlevel in M. unfold sentinel. change QMAXLEVEL with 29.
    destruct (last_descendant_wf d dom 29 Wd ltac:(lia)) as (Wz & Lz & Z1 & Z2). 
    pose proof (is_equal_eq d (last_descendant d dom 29) l Wz Wl) as EQ. destruct (is_equal d (last_descendant d dom 29) l) eqn:E.
    - exists None. split; [reflexivity|]. rewrite <- (proj1 EQ eq_refl). lia.
    - destruct (C06_successor d l Wl) as (SU & _ & NU & _). destruct (successor d l) as [s|] eqn:ES.
      + destruct (SU s eq_refl) as (Ws & Ls & Ps & _). exists (Some s). split; [reflexivity|]. split; [exact Ws|]. split; [lia|]. split; [exact Ps|].
        destruct (Z.eq_dec (qend d l) (qend d dom)) as [X|X]; [|lia]. exfalso. enough (H : last_descendant d dom 29 = l) by (apply EQ in H; discriminate).
        assert (XX : qend d (last_descendant d dom 29) = qend d l) by lia. rewrite !qend_eq, Lz, Ll in XX by auto. apply (quad_eq d); auto; lia.
      + exfalso. destruct NU as (NU & _). specialize (NU eq_refl).
        assert (B : qend d dom <= 2 ^ (nd d * 30)). { apply (wf_root_bounds d dom Wd). }
        enough (H : last_descendant d dom 29 = l) by (apply EQ in H; discriminate).
        assert (XX : qend d (last_descendant d dom 29) = qend d l) by lia. rewrite !qend_eq, Lz, Ll in XX by auto. apply (quad_eq d); auto; lia.
  Qed.
End C.
