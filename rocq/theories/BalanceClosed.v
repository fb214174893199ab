(** * The lists of the balance are closed under the condition, and the list that remains represents them *)

From Coq Require Import ZArith List Bool Lia ZifyBool Sorting.Sorted.
From Verif Require Import Quad Spec Interval QuadLemmas CompareLemmas DescLemmas SearchLocal Adapt Balance BalanceBasics BalanceGeom BalanceHood BalanceFill BalanceComplete BalanceState.
Import ListNotations.
Open Scope Z_scope.

Section Sort.
  Variable d : dim.
  Lemma insert_in q l x : In x (insert_sorted d q l) <-> x = q \/ In x l.
  Proof.
    induction l as [|r l IH]; cbn [insert_sorted]; [cbn; intuition|]. destruct (compare d q r <=? 0); cbn [In]; [intuition|]. rewrite IH. intuition.
  Qed.
  Lemma sort_in l x : In x (sort d l) <-> In x l.
  Proof. induction l as [|q l IH]; cbn [sort fold_right]; [reflexivity|]. rewrite insert_in. unfold sort in IH. rewrite IH. cbn [In]. intuition. Qed.
  Lemma insert_ss q l : wf d q -> Forall (wf d) l -> StronglySorted (le d) l -> StronglySorted (le d) (insert_sorted d q l).
  Proof.
    intros Wq F S. induction S as [|r l S IH FR]; cbn [insert_sorted]; [repeat constructor|]. inversion F as [|? ? Wr Fl]. subst.
    destruct (compare d q r <=? 0) eqn:C.
    - apply Z.leb_le in C. apply (compare_le d q r Wq Wr) in C. constructor; [constructor; assumption|]. constructor; [exact C|]. apply Forall_forall. intros x Hx. rewrite Forall_forall in FR. apply (le_trans d q r x); auto.
    - constructor; [apply IH; exact Fl|]. apply Forall_forall. intros x Hx. apply insert_in in Hx. rewrite Forall_forall in FR. destruct Hx as [->|Hx]; [|auto].
      apply Z.leb_gt in C. pose proof (compare_gt d q r Wq Wr) as G. assert (N : ~ le d q r) by (apply G; lia). unfold le in *. lia.
  Qed.
  Lemma sort_ss l : Forall (wf d) l -> StronglySorted (le d) (sort d l).
  Proof.
    induction l as [|q l IH]; intros F; cbn [sort fold_right]; [constructor|]. inversion F. subst. apply insert_ss; auto.
    apply Forall_forall. intros x Hx. apply (sort_in l x) in Hx. rewrite Forall_forall in *. auto.
  Qed.
  Lemma filter_ss {A} (R : A -> A -> Prop) p l : StronglySorted R l -> StronglySorted R (filter p l).
  Proof.
    induction 1 as [|x l S IH F]; cbn [filter]; [constructor|]. destruct (p x); [|exact IH]. constructor; [exact IH|]. apply Forall_forall. intros y Hy. apply filter_In in Hy. rewrite Forall_forall in F. apply F, Hy.
  Qed.
  Lemma map_filter_ss {A B} (f : A -> B) (R : B -> B -> Prop) p l : StronglySorted R (map f l) -> StronglySorted R (map f (filter p l)).
  Proof.
    induction l as [|x l IH]; cbn [map filter]; intros H; [constructor|]. inversion H as [|? ? S F]. subst. destruct (p x); cbn [map]; [|auto]. constructor; [auto|]. apply Forall_forall. intros y Hy. apply in_map_iff in Hy. destruct Hy as (z & <- & Hz). apply filter_In in Hz.
    rewrite Forall_forall in F. apply F. apply in_map. apply Hz.
  Qed.
End Sort.

Section C.
  Variable d : dim.
  Notation inn w q := (qpos d w <= qpos d q /\ qend d q <= qend d w).
  Variable bsearch : list quad -> quad -> option nat.
  Hypothesis BS : bsearch_ok d bsearch.
  Variable dom : quad.
  Hypothesis Wd : wf d dom.
  Variable k : Z.
  Hypothesis Hk : 1 <= k <= dimz d.
  Variable inl : list quad.
  Hypothesis HI : forall r, In r inl -> exists n, r = rep n /\ wf d n /\ inn dom n /\ ql n < 29.
  Hypothesis SI : StronglySorted (fun r s => qend d (parent d r) <= qpos d (parent d s)) inl.

  Notation inL := (inL inl).
  Notation good := (good d dom k inl).
  Notation done := (done d dom k inl).
  Notation offered := (offered d dom).
  Notation must := (must d dom k inl).

  Variable st : bst.
  Hypothesis G : good st.
  Hypothesis DONE : forall l, minlevel dom + 1 < l -> done st l.

  (** the quadrants with children in a list or below *)
  Definition Sf (n : quad) : Prop := wf d n /\ inn dom n /\ exists m, (inL m \/ exists i, inO st i m) /\ inn n m.

  Lemma inL_spec m : inL m -> wf d m /\ inn dom m /\ ql m < 29 /\ parent d (rep m) = m.
  Proof.
    intros H. destruct (HI _ H) as (n & E & W & I & L). apply rep_inj in E. subst n. split; [exact W|]. split; [exact I|]. split; [exact L|]. apply rep_spec; auto.
  Qed.
  Lemma list_spec m : (inL m \/ exists i, inO st i m) -> wf d m /\ inn dom m /\ ql m < 29.
  Proof.
    intros [H|(i & H)]; [destruct (inL_spec m H) as (A & B & C & _); auto|]. destruct (inO_good d dom k inl st i m G H) as (A & B & _ & C & _). split; [exact A|]. split; [exact B|]. lia.
  Qed.

  Lemma Sf_must n : Sf n -> must n.
  Proof.
    intros (W & I & m & H & J) C CL CI. pose proof CL as (_ & CA & _). apply (CA m); auto. destruct H as [H|(i & H)]; [apply CI; exact H|]. destruct (inO_good d dom k inl st i m G H) as (_ & _ & _ & _ & X). apply X; auto.
  Qed.

  Lemma in_offered : forall N m i p, Z.to_nat (ql m - ql p) = N -> inO st i m -> wf d p -> inn dom p -> inn p m -> ql dom + 1 < ql p ->
    forall sid, 0 <= sid < bound_of d k -> offered st (ql p + 1) p sid.
  Proof.
    induction N as [|N IH]; intros m i p EN HO Wp Ip J Lp sid Hs; destruct (inO_good d dom k inl st i m G HO) as (Wm & Im & Li & Lm & _); pose proof (inn_level d p m Wp Wm J) as LE;
      destruct (DONE i ltac:(unfold minlevel; lia)) as (_ & DO); specialize (DO m HO).
    - assert (p = m) by (apply (inn_eq d); auto; lia). subst p. replace (ql m + 1) with i by lia. apply DO. exact Hs.
    - destruct (DO 0 ltac:(pose proof (bound_8 d k Hk); lia)) as [(X & _)|X]; [lia|]. rewrite dir_zero, shift_zero in X. pose proof (wf_level d dom Wd).
      apply (IH (parent d m) (i - 1) p); auto; [destruct (parent_wf d m Wm ltac:(lia)) as (_ & -> & _); lia|]. apply (inn_parent d p m); auto. lia.
  Qed.

  Lemma Sf_offered p : Sf p -> ql dom + 1 < ql p -> forall sid, 0 <= sid < bound_of d k -> offered st (ql p + 1) p sid.
  Proof.
    intros (Wp & Ip & m & H & J) Lp sid Hs. pose proof (wf_level d dom Wd) as L0.
    assert (OUT : forall n i, inO st i n -> inn p n -> offered st (ql p + 1) p sid) by (intros n i A B; apply (in_offered (Z.to_nat (ql n - ql p)) n i p); auto).
    destruct H as [H|(i & H)]; [|apply (OUT m i); auto].
    destruct (inL_spec m H) as (Wm & Im & Lm & PA). pose proof (inn_level d p m Wp Wm J) as LE. destruct (rep_spec d m Wm Lm) as (_ & Lr & _).
    destruct (DONE (ql m + 1) ltac:(unfold minlevel; lia)) as (DI & _). specialize (DI (rep m) H Lr). unfold dup in DI. rewrite PA in DI. destruct DI as [(n & i & A & B)|DI].
    - apply (OUT n i); auto. lia.
    - destruct (Z.eq_dec (ql p) (ql m)) as [E|N].
      + assert (p = m) by (apply (inn_eq d); auto; lia). subst p. apply DI. exact Hs.
      + destruct (DI 0 ltac:(pose proof (bound_8 d k Hk); lia)) as [(X & _)|X]; [lia|]. rewrite dir_zero, shift_zero in X. apply (OUT (parent d m) (ql m + 1 - 1)); auto. apply (inn_parent d p m); auto. lia.
  Qed.

  Lemma Sf_closed : closed d k dom Sf.
  Proof.
    pose proof (wf_level d dom Wd) as L0. split; [|split].
    - intros p (A & B & _). auto.
    - intros p q (A & B & m & H & J) Wq Iq JQ. split; [exact Wq|]. split; [exact Iq|]. exists m. split; [exact H|]. lia.
    - intros p o Hp Lp OF Ws Is. pose proof Hp as (Wp & Ip & m & H & J).
      assert (Ls : ql (shift p o) = ql p) by (destruct o as ((a, b), c); reflexivity).
      destruct (parent_wf d (shift p o) Ws ltac:(lia)) as (Wn & Ln & _). pose proof (inn_parent d dom _ Wd Ws Is ltac:(lia)) as In'.
      destruct (Z.eq_dec (ql p) (ql dom + 1)) as [E|N].
      + assert (ED : dom = parent d (shift p o)) by (apply (inn_eq d); auto; lia). rewrite <- ED. split; [exact Wd|]. split; [lia|]. exists m. split; [exact H|]. lia.
      + split; [exact Wn|]. split; [exact In'|]. destruct (leaving_dir d k (child_id d p) o Hk OF) as (sid & Hs & EL).
        pose proof (Sf_offered p Hp ltac:(lia) sid Hs) as OFF. unfold BalanceState.offered in OFF. rewrite <- EL in OFF. rewrite <- shift_parent in OFF by (auto; try lia; destruct o as ((a, b), c); unfold offset in OF; intuition lia). destruct OFF as [(_ & X)|X].
        * exfalso. destruct (rep_spec d (parent d (shift p o)) Wn ltac:(pose proof (wf_level d p Wp); lia)) as (Wr & Lr & _ & _ & J1 & J2).
          rewrite (proj2 (anc_iff d dom (rep (parent d (shift p o))) Wd Wr)) in X; [discriminate|]. split; [lia|]. lia.
        * exists (parent d (shift p o)). split; [right; eexists; exact X|]. lia.
  Qed.

  (** what remains without the precluded entries *)
  Definition live (n : quad) : Prop :=
    (exists fl, In (rep n, fl) (b_in st) /\ Z.land fl PRECLUDED = 0) \/ (exists i fl, In (rep n, fl) (b_out st i) /\ fl <> PRECLUDED).

  Lemma live_below : forall N m, Z.to_nat (30 - ql m) = N -> (inL m \/ exists i, inO st i m) -> exists n, live n /\ inn m n.
  Proof.
    induction N as [N IH] using (well_founded_induction lt_wf). intros m EN H. destruct (list_spec m H) as (Wm & Im & Lm).
    pose proof G as (EI & G2 & G3).
    assert (DEEP : forall n i, inO st i n -> inn m n -> ql m < ql n -> exists n, live n /\ inn m n).
    { intros n i HO J L. destruct (IH (Z.to_nat (30 - ql n)) ltac:(lia) n eq_refl (or_intror (ex_intro _ i HO))) as (x & LX & JX). exists x. split; [exact LX|]. lia. }
    assert (INP : forall x, inL x -> inn m x -> ql m <= ql x -> exists n, live n /\ inn m n).
    { intros x HX J L. destruct (inL_spec x HX) as (_ & _ & _ & PA). unfold BalanceState.inL in HX. rewrite <- EI in HX. apply in_map_iff in HX. destruct HX as ((r, fl) & E & HB). cbn [fst] in E. subst r. destruct (G3 _ _ HB) as (_ & P). rewrite PA in P.
      destruct (Z.eq_dec (Z.land fl PRECLUDED) 0) as [Z0|Z0].
      - exists x. split; [left; exists fl; auto|exact J].
      - destruct (P ltac:(unfold nz; lia)) as (n & i & HO & J1 & L1). apply (DEEP n i); auto; lia. }
    destruct H as [H|(i & fl & H)]; [apply (INP m); auto; lia|].
    destruct (G2 i _ _ H) as (n & E & _ & _ & _ & _ & _ & F). apply rep_inj in E. subst n. destruct F as [F|(F & JU)].
    - exists m. split; [right; exists i, fl; split; [exact H|rewrite F; discriminate]|lia].
    - destruct JU as [(x & HX & J)|(x & j & HO & J & L)]; [|apply (DEEP x j); auto]. apply (INP x); auto. apply (inn_level d); auto. apply inL_spec. exact HX.
  Qed.
End C.
