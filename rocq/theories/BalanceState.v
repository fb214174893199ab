(** * The lists of the balance: what holds after every step *)

From Coq Require Import ZArith List Bool Lia ZifyBool Sorting.Sorted.
From Verif Require Import Quad Spec Interval QuadLemmas DescLemmas SearchLocal Adapt Balance BalanceBasics BalanceGeom BalanceHood.
Import ListNotations.
Open Scope Z_scope.

Lemma aset_split {A} (l : list A) i x v : nth_error l i = Some x -> exists a b, l = a ++ x :: b /\ aset l i v = Some (a ++ v :: b).
Proof.
  revert i. induction l as [|y l IH]; intros [|i] H; try discriminate; cbn [nth_error] in H.
  - injection H as ->. exists [], l. auto.
  - destruct (IH i H) as (a & b & -> & E). exists (y :: a), b. split; [reflexivity|]. cbn [aset app]. rewrite E. reflexivity.
Qed.

Section S.
  Variable d : dim.
  Notation inn w q := (qpos d w <= qpos d q /\ qend d q <= qend d w).
  Variable bsearch : list quad -> quad -> option nat.
  Hypothesis BS : bsearch_ok d bsearch.
  Variable dom : quad.
  Hypothesis Wd : wf d dom.
  Variable k : Z.
  Hypothesis Hk : 1 <= k <= dimz d.
  Variable inl : list quad.
  Hypothesis HI : forall r, In r inl -> exists n, r = rep n /\ wf d n /\ inn dom n /\ ql n < 29.
  Hypothesis SI : StronglySorted (fun r s => qend d (parent d r) <= qpos d (parent d s)) inl.

  Notation offer := (offer d bsearch dom).
  Notation sid_loop := (sid_loop d bsearch dom).
  Notation spawn := (spawn d bsearch dom).
  Notation jz_loop := (jz_loop d bsearch dom).
  Notation level_loop := (level_loop d bsearch dom).

  (** quadrants are in the lists by their first children *)
  Definition inL (n : quad) : Prop := In (rep n) inl.
  Definition inO (st : bst) (m : Z) (n : quad) : Prop := exists fl, In (rep n, fl) (b_out st m).
  Definition sub (st st' : bst) : Prop := forall m n, inO st m n -> inO st' m n.

  (** quadrants that must have children *)
  Definition must (n : quad) : Prop := forall C, closed d k dom C -> (forall m, inL m -> C m) -> C n.
  (** a list has a descendant *)
  Definition just (st : bst) (n : quad) : Prop := (exists m, inL m /\ inn n m) \/ (exists m i, inO st i m /\ inn n m /\ ql n < ql m).

  Definition good (st : bst) : Prop :=
    map fst (b_in st) = inl /\
    (forall m o fl, In (o, fl) (b_out st m) -> exists n, o = rep n /\ wf d n /\ inn dom n /\ ql n = m - 1 /\ ql dom < ql n < 29 /\ must n /\ (fl = 0 \/ fl = PRECLUDED /\ just st n)) /\
    (forall r fl, In (r, fl) (b_in st) ->
       (nz (Z.land fl DUPLICATE) = true -> exists n m, inO st m n /\ inn (parent d r) n) /\
       (nz (Z.land fl PRECLUDED) = true -> exists n m, inO st m n /\ inn (parent d r) n /\ ql (parent d r) < ql n)).

  Lemma sub_refl st : sub st st. Proof. intros m n H. exact H. Qed.
  Lemma sub_trans a b c : sub a b -> sub b c -> sub a c. Proof. intros H1 H2 m n H. apply H2, H1, H. Qed.
  Lemma just_mono a b n : sub a b -> just a n -> just b n.
  Proof. intros S [H|(m & i & H1 & H2)]; [left; exact H|right]. exists m, i. split; [apply S; exact H1|exact H2]. Qed.

  Lemma inl_spec r : In r inl -> wf d r /\ 0 < ql r /\ wf d (parent d r) /\ ql (parent d r) = ql r - 1 /\ r = rep (parent d r) /\ inn dom (parent d r) /\ inL (parent d r) /\ ql (parent d r) < 29.
  Proof.
    intros H. destruct (HI r H) as (n & -> & Wn & In' & Ln). destruct (rep_spec d n Wn Ln) as (A & B & C & E & _). pose proof (wf_level d n Wn). rewrite E. split; [exact A|]. split; [lia|]. split; [exact Wn|]. split; [lia|].
    split; [reflexivity|]. split; [exact In'|]. split; [exact H|exact Ln].
  Qed.

  Lemma inO_good st m n : good st -> inO st m n -> wf d n /\ inn dom n /\ ql n = m - 1 /\ ql dom < ql n < 29 /\ must n.
  Proof. intros (_ & G & _) (fl & H). destruct (G m _ _ H) as (n' & E & H1 & H2 & H3 & H4 & H5 & _). apply rep_inj in E. subst n'. auto. Qed.

  Lemma lookup_spec l q : wf d q -> (forall o fl, In (o, fl) l -> wf d o) ->
    match lookup d l q with
    | Some i => exists fl, nth_error l i = Some (q, fl)
    | None => forall fl, ~ In (q, fl) l
    end.
  Proof.
    intros W. induction l as [|(r, f) l IH]; intros H; cbn [lookup]; [intros fl []|].
    destruct (is_equal d q r) eqn:E; [apply is_equal_eq in E; [subst r; exists f; reflexivity|exact W|apply (H r f); left; reflexivity]|].
    specialize (IH ltac:(intros; eapply H; right; eassumption)). destruct (lookup d l q) as [i|]; cbn [option_map nth_error]; [exact IH|].
    intros fl [X|X]; [injection X as -> ->; rewrite (proj2 (is_equal_eq d q q W W) eq_refl) in E; discriminate|exact (IH fl X)].
  Qed.

  Lemma upd_same f l v : upd f l v l = v. Proof. unfold upd. rewrite Z.eqb_refl. reflexivity. Qed.
  Lemma upd_other f l v i : i <> l -> upd f l v i = f i. Proof. intros H. unfold upd. replace (i =? l) with false by lia. reflexivity. Qed.

  (** a new state of one list *)
  Lemma good_step st m n o' il' : good st -> wf d n -> inn dom n -> ql n = m - 1 -> ql dom < ql n < 29 -> must n ->
    (forall o fl, In (o, fl) o' -> In (o, fl) (b_out st m) \/ o = rep n /\ (fl = 0 \/ fl = PRECLUDED /\ just st n)) ->
    (forall o fl, In (o, fl) (b_out st m) -> exists fl', In (o, fl') o') -> (exists fl, In (rep n, fl) o') ->
    map fst il' = inl ->
    (forall r fl, In (r, fl) il' -> exists fl0, In (r, fl0) (b_in st) /\
       (nz (Z.land fl DUPLICATE) = true -> nz (Z.land fl0 DUPLICATE) = true \/ inn (parent d r) n) /\
       (nz (Z.land fl PRECLUDED) = true -> nz (Z.land fl0 PRECLUDED) = true \/ inn (parent d r) n /\ ql (parent d r) < ql n)) ->
    let st' := mkbst il' (upd (b_out st) m o') in good st' /\ sub st st' /\ (forall i, i <> m -> b_out st' i = b_out st i) /\ inO st' m n.
  Proof.
    intros (G1 & G2 & G3) Wn In' Ln Dn Mn H1 H2 H3 E4 H5 st'.
    assert (SU : sub st st').
    { intros i x (fl & H). unfold inO, st'. cbn [b_out]. destruct (Z.eq_dec i m) as [->|N]; [rewrite upd_same; exact (H2 _ _ H)|rewrite upd_other by exact N; exists fl; exact H]. }
    assert (IO : inO st' m n) by (unfold inO, st'; cbn [b_out]; rewrite upd_same; exact H3).
    split; [|split; [exact SU|split; [intros i Hi; unfold st'; cbn [b_out]; apply upd_other; exact Hi|exact IO]]].
    split; [exact E4|]. split.
    - intros i o fl H. unfold st' in H. cbn [b_out] in H.
      assert (OLD : In (o, fl) (b_out st i) -> exists n0, o = rep n0 /\ wf d n0 /\ inn dom n0 /\ ql n0 = i - 1 /\ ql dom < ql n0 < 29 /\ must n0 /\ (fl = 0 \/ fl = PRECLUDED /\ just st' n0)).
      { intros HO. destruct (G2 i o fl HO) as (n0 & A1 & A2 & A3 & A4 & A5 & A6 & A7). exists n0. repeat (split; [assumption|]). destruct A7 as [A7|(A7 & A8)]; [left; exact A7|right; split; [exact A7|apply (just_mono st); auto]]. }
      destruct (Z.eq_dec i m) as [->|N]; [rewrite upd_same in H|rewrite upd_other in H by exact N; apply OLD; exact H].
      destruct (H1 o fl H) as [HO|(-> & F)]; [apply OLD; exact HO|]. exists n. repeat (split; [first [reflexivity|assumption]|]). destruct F as [F|(F & J)]; [left; exact F|right; split; [exact F|apply (just_mono st); auto]].
    - intros r fl H. unfold st' in H. cbn [b_in] in H. destruct (H5 r fl H) as (fl0 & A & B & C). destruct (G3 r fl0 A) as (D1 & D2). split.
      + intros X. destruct (B X) as [Y|Y]; [destruct (D1 Y) as (n0 & i & E1 & E2); exists n0, i; split; [apply SU; exact E1|exact E2]|exists n, m; auto].
      + intros X. destruct (C X) as [Y|Y]; [destruct (D2 Y) as (n0 & i & E1 & E2); exists n0, i; split; [apply SU; exact E1|exact E2]|exists n, m; auto].
  Qed.

  Lemma offer_ok l sid n st : good st -> ql n = l - 2 -> ql dom < ql n < 29 ->
    (sid = 0 \/ is_ancestor d dom (rep n) = true -> wf d n /\ inn dom n /\ must n) -> (sid = 0 -> just st n) ->
    exists st', offer l sid (rep n) st = Some st' /\ good st' /\ sub st st' /\ (forall i, i <> l - 1 -> b_out st' i = b_out st i) /\
      ((sid <> 0 /\ is_ancestor d dom (rep n) = false) \/ inO st' (l - 1) n).
  Proof.
    intros G Ln Dn HN HJ. unfold Balance.offer. unfold bq in *. destruct (nz sid && negb (is_ancestor d dom (rep n))) eqn:SK.
    - apply andb_true_iff in SK. destruct SK as (S1 & S2). exists st. split; [reflexivity|]. split; [exact G|]. split; [apply sub_refl|]. split; [auto|]. left. split; [unfold nz in S1; lia|apply negb_true_iff; exact S2].
    - assert (OK : sid = 0 \/ is_ancestor d dom (rep n) = true). { unfold nz in SK. destruct (Z.eq_dec sid 0) as [C|C]; [left; exact C|right]. replace (sid =? 0) with false in SK by lia. cbn [negb andb] in SK. apply negb_false_iff in SK. exact SK. }
      destruct (HN OK) as (Wn & In' & Mn). destruct (rep_spec d n Wn ltac:(lia)) as (Wr & Lr & Pr & PA & _).
      assert (WO : forall o fl, In (o, fl) (b_out st (l - 1)) -> wf d o). { intros o fl H. destruct G as (_ & G2 & _). destruct (G2 _ _ _ H) as (n0 & -> & W0 & _ & _ & L0 & _). apply rep_spec; auto. lia. }
      pose proof (lookup_spec (b_out st (l - 1)) (rep n) Wr WO) as LK.
      assert (SAME : forall r fl, In (r, fl) (b_in st) -> exists fl0, In (r, fl0) (b_in st) /\
       (nz (Z.land fl DUPLICATE) = true -> nz (Z.land fl0 DUPLICATE) = true \/ inn (parent d r) n) /\ (nz (Z.land fl PRECLUDED) = true -> nz (Z.land fl0 PRECLUDED) = true \/ inn (parent d r) n /\ ql (parent d r) < ql n)).
      { intros r fl H. exists fl. split; [exact H|]. split; intros; left; assumption. }
      assert (STEP : forall fl il', (fl = 0 \/ fl = PRECLUDED /\ just st n) -> map fst il' = inl -> (forall r fl1, In (r, fl1) il' -> exists fl0, In (r, fl0) (b_in st) /\
         (nz (Z.land fl1 DUPLICATE) = true -> nz (Z.land fl0 DUPLICATE) = true \/ inn (parent d r) n) /\ (nz (Z.land fl1 PRECLUDED) = true -> nz (Z.land fl0 PRECLUDED) = true \/ inn (parent d r) n /\ ql (parent d r) < ql n)) ->
         let st' := mkbst il' (upd (b_out st) (l - 1) (b_out st (l - 1) ++ [(rep n, fl)])) in good st' /\ sub st st' /\ (forall i, i <> l - 1 -> b_out st' i = b_out st i) /\ inO st' (l - 1) n).
      { intros fl il' HF HM HL. apply good_step; auto; [lia| | |].
        - intros o f H. apply in_app_or in H. destruct H as [H|[H|[]]]; [left; exact H|right]. injection H as <- <-. auto.
        - intros o f H. exists f. apply in_or_app. left. exact H.
        - exists fl. apply in_or_app. right. left. reflexivity. }
      destruct (lookup d (b_out st (l - 1)) (rep n)) as [i|].
      + destruct LK as (fl & NE). destruct (sid =? 0) eqn:S0.
        * destruct (aset_split _ i (rep n, fl) (rep n, PRECLUDED) NE) as (a & b & EO & EA). rewrite EA. eexists. split; [reflexivity|].
          destruct (good_step st (l - 1) n (a ++ (rep n, PRECLUDED) :: b) (b_in st) G Wn In' ltac:(lia) Dn Mn) as (A & B & C & D0); auto.
          -- intros o f H. rewrite EO. apply in_app_or in H. destruct H as [H|[H|H]]; [left; apply in_or_app; left; exact H|right; injection H as <- <-; split; [reflexivity|right; split; [reflexivity|apply HJ; lia]]|left; apply in_or_app; right; right; exact H].
          -- intros o f H. rewrite EO in H. apply in_app_or in H. destruct H as [H|[H|H]]; [exists f; apply in_or_app; left; exact H|exists PRECLUDED; injection H as <- _; apply in_or_app; right; left; reflexivity|exists f; apply in_or_app; right; right; exact H].
          -- exists PRECLUDED. apply in_or_app. right. left. reflexivity.
          -- apply G.
        * exists st. split; [reflexivity|]. split; [exact G|]. split; [apply sub_refl|]. split; [auto|]. right. exists fl. eapply nth_error_In; eauto.
      + destruct (sid =? 0) eqn:S0.
        * eexists. split; [reflexivity|]. destruct (STEP PRECLUDED (b_in st)) as (A & B & C & D0); auto; [right; split; [reflexivity|apply HJ; lia]|apply G].
        * assert (EI : map fst (b_in st) = inl) by apply G. rewrite EI. pose proof (BS inl (rep n)) as BB.
          assert (BP : StronglySorted (fun x y => Z.sgn (disjoint_parent d (rep n) y) <= Z.sgn (disjoint_parent d (rep n) x)) inl).
          { pose proof (wf_level d n Wn). apply reps_sorted; auto; [lia|]. intros r Hr. destruct (inl_spec r Hr) as (A & B & _). auto. }
          specialize (BB BP). destruct (bsearch inl (rep n)) as [i|].
          -- destruct BB as (r & NR & DP). rewrite <- EI in NR. rewrite nth_error_map in NR. unfold bq in *. destruct (nth_error (A := quad * Z) (b_in st) i) as [(r', f)|] eqn:NE; [|discriminate NR]. cbn [option_map fst] in NR. injection NR as ->.
             assert (HRin : In r inl) by (rewrite <- EI; apply in_map_iff; exists (r, f); split; [reflexivity|eapply nth_error_In; eauto]). destruct (inl_spec r HRin) as (Wrr & Lrr & Wpr & Lpr & Er & Ir & Inr & _). pose proof (wf_level d n Wn).
             destruct (disjoint_parent_zero d (rep n) r Wr Wrr ltac:(lia) Lrr) as (DZ & _). apply DZ in DP. rewrite PA in DP.
             set (f1 := if ql r <=? l - 1 then Z.lor f DUPLICATE else f). set (f2 := if ql r <? l - 1 then Z.lor f1 PRECLUDED else f1).
             destruct (aset_split _ i (r, f) (r, f2) NE) as (a & b & EB & EA). rewrite EA. eexists. split; [reflexivity|].
             assert (IN1 : ql r <= l - 1 -> inn (parent d r) n).
             { intros C. destruct DP as [DP|DP]; [|exact DP]. assert (n = parent d r); [|subst n; lia]. apply (inn_eq d); auto. lia. }
             assert (BITS : (nz (Z.land f2 DUPLICATE) = true -> nz (Z.land f DUPLICATE) = true \/ ql r <= l - 1) /\ (nz (Z.land f2 PRECLUDED) = true -> nz (Z.land f PRECLUDED) = true \/ ql r < l - 1)).
             { unfold f2, f1. destruct (ql r <=? l - 1) eqn:C1, (ql r <? l - 1) eqn:C2; split; intros X; try (right; lia); left; try exact X; try (exfalso; lia); rewrite ?Z.land_lor_distr_l in X; change (Z.land DUPLICATE PRECLUDED) with 0 in X; change (Z.land PRECLUDED DUPLICATE) with 0 in X; rewrite ?Z.lor_0_r in X; exact X. }
             assert (HF : (if ql r >=? l - 1 then PRECLUDED else 0) = 0 \/ (if ql r >=? l - 1 then PRECLUDED else 0) = PRECLUDED /\ just st n).
             { destruct (ql r >=? l - 1) eqn:C; [right|left; reflexivity]. split; [reflexivity|]. left. exists (parent d r). split; [exact Inr|]. destruct DP as [DP|DP]; [exact DP|]. assert (parent d r = n); [|subst n; lia]. apply (inn_eq d); auto. lia. }
             destruct (STEP (if ql r >=? l - 1 then PRECLUDED else 0) (a ++ (r, f2) :: b)) as (A & B & C & D0); auto.
             { rewrite map_app. cbn [map fst]. rewrite <- EI, EB, map_app. reflexivity. }
             intros r0 fl H1. rewrite EB. apply in_app_or in H1. destruct H1 as [H1|[H1|H1]].
             ++ exists fl. split; [apply in_or_app; left; exact H1|]. split; intros; left; assumption.
             ++ injection H1 as <- <-. exists f. split; [apply in_or_app; right; left; reflexivity|]. destruct BITS as (B1 & B2). split; intros X.
                ** destruct (B1 X) as [Y|Y]; [left; exact Y|right; apply IN1; exact Y].
                ** destruct (B2 X) as [Y|Y]; [left; exact Y|right; split; [apply IN1; lia|lia]].
             ++ exists fl. split; [apply in_or_app; right; right; exact H1|]. split; intros; left; assumption.
          -- eexists. split; [reflexivity|]. destruct (STEP 0 (b_in st)) as (A & B & C & D0); auto.
  Qed.

  (** the neighbors of the parent of p on the side of p were offered *)
  Definition offered (st : bst) (l : Z) (p : quad) (sid : Z) : Prop :=
    let n := shift (parent d p) (dir d (child_id d p) sid) in
    (sid <> 0 /\ is_ancestor d dom (rep n) = false) \/ inO st (l - 1) n.
  Lemma offered_mono a b l p sid : sub a b -> offered a l p sid -> offered b l p sid.
  Proof. intros S [H|H]; [left; exact H|right; apply S; exact H]. Qed.

  Lemma spawn_ok l p st : good st -> wf d p -> inn dom p -> ql p = l - 1 -> ql dom + 1 < ql p -> ql p < 29 -> must p -> (inL p \/ inO st l p) ->
    exists st', spawn (bound_of d k) l (rep p) st = Some st' /\ good st' /\ sub st st' /\ (forall i, i <> l - 1 -> b_out st' i = b_out st i) /\
      (forall sid, 0 <= sid < bound_of d k -> offered st' l p sid).
  Proof.
    intros G Wp Ip Lp Dp L29 Mp SRC. pose proof (wf_level d dom Wd). destruct (rep_spec d p Wp L29) as (_ & _ & _ & PA & _). unfold Balance.spawn. rewrite PA. pose proof (bound_8 d k Hk) as B8.
    destruct (parent_wf d p Wp ltac:(lia)) as (Wg & Lg & _). pose proof (parent_inn d p Wp ltac:(lia)) as Jg. pose proof (inn_parent d dom p Wd Wp Ip ltac:(lia)) as Ig.
    set (g := parent d p) in *. set (pid := child_id d p) in *.
    assert (JUST : forall st0, sub st st0 -> just st0 g).
    { intros st0 S. destruct SRC as [H1|H1]; [left; exists p; auto|right; exists p, l; split; [apply S; exact H1|split; [exact Jg|lia]]]. }
    assert (LOOP : forall n sid st0, good st0 -> sub st st0 -> 0 <= sid -> sid + Z.of_nat n <= bound_of d k ->
      exists st', sid_loop n l sid (sibling d p 0) pid (QLEN (ql p - 1)) st0 = Some st' /\ good st' /\ sub st0 st' /\ (forall i, i <> l - 1 -> b_out st' i = b_out st0 i) /\
        (forall s, sid <= s < sid + Z.of_nat n -> offered st' l p s)).
    { induction n as [|n IH]; intros sid st0 G0 S0 Hs Hb; cbn [Balance.sid_loop].
      - exists st0. split; [reflexivity|]. split; [exact G0|]. split; [apply sub_refl|]. split; [auto|]. intros; lia.
      - unfold pid. rewrite (hood_rep d p sid Wp ltac:(lia)). fold pid. fold g.
        destruct (offer_ok l sid (shift g (dir d pid sid)) st0 G0) as (st1 & E1 & G1 & S1 & F1 & O1).
        + destruct (dir d pid sid) as ((a, b), c). cbn [shift ql]. lia.
        + destruct (dir d pid sid) as ((a, b), c). cbn [shift ql]. lia.
        + intros C. destruct (Z.eq_dec sid 0) as [->|NZ].
          * rewrite dir_zero, shift_zero. split; [exact Wg|]. split; [exact Ig|]. intros C0 CL CI. pose proof CL as (_ & CA & _). apply (CA p g); [apply Mp; auto|exact Wg|exact Ig|exact Jg].
          * destruct C as [C|C]; [lia|]. destruct (dir_offset d k pid sid Hk ltac:(lia)) as (OF & LV & OZ).
            assert (ZZ : d = D2 -> qz (rep (shift g (dir d pid sid))) = 0).
            { intros E. pose proof (wf_z d g Wg E) as Z1. pose proof (OZ E) as Z2. destruct (dir d pid sid) as ((a, b), c). cbn [rep shift qz snd] in *. rewrite Z1, Z2. reflexivity. }
            apply (anc_corner d dom _ Wd ZZ) in C. destruct C as (_ & C).
            destruct (shift_wf d dom g (dir d pid sid) Wd Wg ltac:(lia) OZ) as (WN & IN'). { exact C. }
            split; [exact WN|]. split; [exact IN'|]. intros C0 CL CI.
            destruct (shift_up d p (dir d pid sid) Wp ltac:(lia) LV OZ WN) as (WS & ES). fold g in ES. rewrite <- ES. pose proof CL as (CW & CA & CN). apply (CN p); [apply Mp; auto|lia|exact OF|exact WS|].
            pose proof (parent_inn d _ WS) as JS. rewrite ES in JS. assert (0 < ql (shift p (dir d pid sid))) by (destruct (dir d pid sid) as ((a, b), c); cbn [shift ql]; lia). specialize (JS H0). lia.
        + intros ->. rewrite dir_zero, shift_zero. apply JUST. exact S0.
        + rewrite E1. destruct (IH (sid + 1) st1 G1 (sub_trans _ _ _ S0 S1) ltac:(lia) ltac:(lia)) as (st2 & E2 & G2 & S2 & F2 & O2). exists st2. split; [exact E2|]. split; [exact G2|]. split; [apply (sub_trans _ st1); auto|].
          split; [intros i Hi; rewrite F2, F1; auto|]. intros s Hs'. destruct (Z.eq_dec s sid) as [->|N]; [apply (offered_mono st1); auto|apply O2; lia]. }
    destruct (LOOP (Z.to_nat (bound_of d k)) 0 st G (sub_refl st) ltac:(lia) ltac:(lia)) as (st' & E & G' & S' & F' & O'). exists st'. split; [exact E|]. split; [exact G'|]. split; [exact S'|]. split; [exact F'|].
    intros sid Hs. apply O'. lia.
  Qed.

  Definition dup (st : bst) (r : quad) : Prop := exists n m, inO st m n /\ inn (parent d r) n.

  Lemma jz_ok l ol : ql dom + 2 < l -> forall n jz st, (jz + n = length inl + length ol)%nat -> good st -> b_out st l = ol ->
    exists st', jz_loop n (bound_of d k) l (length inl) jz st = Some st' /\ good st' /\ sub st st' /\ (forall i, i <> l - 1 -> b_out st' i = b_out st i) /\
      (forall i r, (jz <= i)%nat -> nth_error inl i = Some r -> ql r = l -> dup st' r \/ forall sid, 0 <= sid < bound_of d k -> offered st' l (parent d r) sid) /\
      (forall i p fl, (jz <= length inl + i)%nat -> nth_error ol i = Some (rep p, fl) -> forall sid, 0 <= sid < bound_of d k -> offered st' l p sid).
  Proof.
    intros Dl. induction n as [|n IH]; intros jz st LE G EO; cbn [Balance.jz_loop]; unfold bq in *.
    - exists st. split; [reflexivity|]. split; [exact G|]. split; [apply sub_refl|]. split; [auto|]. split.
      + intros i r Hi NE. assert (i < length inl)%nat by (apply nth_error_Some; congruence). lia.
      + intros i p fl Hi NE. assert (i < length ol)%nat by (apply nth_error_Some; congruence). lia.
    - pose proof G as (EI & G2 & G3). assert (LI : length (b_in st) = length inl) by (rewrite <- EI, map_length; reflexivity).
      assert (NEXT : forall st1 (Q : Prop), good st1 -> sub st st1 -> (forall i, i <> l - 1 -> b_out st1 i = b_out st i) ->
         (forall r st2, sub st1 st2 -> (jz < length inl)%nat -> nth_error inl jz = Some r -> ql r = l -> dup st2 r \/ forall sid, 0 <= sid < bound_of d k -> offered st2 l (parent d r) sid) ->
         (forall p fl st2, sub st1 st2 -> (length inl <= jz)%nat -> nth_error ol (jz - length inl) = Some (rep p, fl) -> forall sid, 0 <= sid < bound_of d k -> offered st2 l p sid) ->
         exists st', jz_loop n (bound_of d k) l (length inl) (S jz) st1 = Some st' /\ good st' /\ sub st st' /\ (forall i, i <> l - 1 -> b_out st' i = b_out st i) /\
      (forall i r, (jz <= i)%nat -> nth_error inl i = Some r -> ql r = l -> dup st' r \/ forall sid, 0 <= sid < bound_of d k -> offered st' l (parent d r) sid) /\
      (forall i p fl, (jz <= length inl + i)%nat -> nth_error ol i = Some (rep p, fl) -> forall sid, 0 <= sid < bound_of d k -> offered st' l p sid)).
      { intros st1 Q G1 S1 F1 HA HB. destruct (IH (S jz) st1 ltac:(lia) G1 ltac:(rewrite F1; [exact EO|lia])) as (st2 & E2 & Gd & S2 & F2 & A2 & B2). exists st2.
        split; [exact E2|]. split; [exact Gd|]. split; [apply (sub_trans _ st1); auto|]. split; [intros i Hi; rewrite F2, F1; auto|]. split.
        - intros i r Hi NE LR. assert (LT : (i < length inl)%nat) by (apply nth_error_Some; congruence). destruct (Nat.eq_dec i jz) as [->|N]; [apply HA; auto|apply (A2 i); auto; lia].
        - intros i p fl Hi NE. destruct (Nat.eq_dec jz (length inl + i)) as [Ej|N].
          + apply (HB p fl); auto; [lia|]. replace (jz - length inl)%nat with i by lia. exact NE.
          + apply (B2 i p fl); auto. lia. }
      destruct (Nat.ltb jz (length inl)) eqn:CJ.
      + apply Nat.ltb_lt in CJ. destruct (nth_error (A := quad * Z) (b_in st) jz) as [(q, f)|] eqn:NE; [|apply nth_error_None in NE; unfold bq in *; lia].
        assert (NI : nth_error inl jz = Some q) by (rewrite <- EI, nth_error_map; unfold bq in *; rewrite NE; reflexivity).
        destruct (G3 q f (nth_error_In _ _ NE)) as (D1 & _).
        destruct (negb (ql q =? l) || nz (Z.land f DUPLICATE)) eqn:CD.
        * apply (NEXT st True); auto; [apply sub_refl| |intros; lia].
          intros r st2 S2 _ NR LR. rewrite NI in NR. injection NR as <-. left. replace (ql q =? l) with true in CD by lia. destruct (D1 CD) as (n0 & m0 & A & B). exists n0, m0. split; [apply S2; exact A|exact B].
        * apply orb_false_iff in CD. destruct CD as (C1 & _). apply negb_false_iff, Z.eqb_eq in C1. destruct (inl_spec q (nth_error_In _ _ NI)) as (Wq & Lq & Wp & Lp & Eq & Ip & InP & L29).
          assert (MQ : must (parent d q)) by (intros C0 CL CI; apply CI; exact InP).
          destruct (spawn_ok l (parent d q) st G Wp Ip ltac:(lia) ltac:(lia) L29 MQ (or_introl InP)) as (st1 & E1 & G1 & S1 & F1 & O1). rewrite <- Eq in E1. rewrite E1.
          apply (NEXT st1 True); auto; [|intros; lia]. intros r st2 S2 _ NR LR. rewrite NI in NR. injection NR as <-. right. intros sid Hs. apply (offered_mono st1); auto.
      + apply Nat.ltb_ge in CJ. rewrite EO. destruct (nth_error ol (jz - length inl)) as [(q, fl)|] eqn:NE; [|apply nth_error_None in NE; lia].
        pose proof (nth_error_In _ _ NE) as HQ. rewrite <- EO in HQ. destruct (G2 l q fl HQ) as (p & -> & Wp & Ip & Lp & Dp & Mp & _).
        destruct (spawn_ok l p st G Wp Ip Lp ltac:(lia) ltac:(lia) Mp) as (st1 & E1 & G1 & S1 & F1 & O1). { right. exists fl. exact HQ. } rewrite E1.
        apply (NEXT st1 True); auto; [intros; lia|]. intros p0 fl0 st2 S2 _ NR sid Hs. try (unfold bq in *; rewrite NE in NR). assert (EP : rep p = rep p0) by congruence. apply rep_inj in EP. subst p0. apply (offered_mono st1); auto.
  Qed.

  (** everything of level l was expanded *)
  Definition done (st : bst) (l : Z) : Prop :=
    (forall r, In r inl -> ql r = l -> dup st r \/ forall sid, 0 <= sid < bound_of d k -> offered st l (parent d r) sid) /\
    (forall p, inO st l p -> forall sid, 0 <= sid < bound_of d k -> offered st l p sid).
  Lemma done_mono st st' l : sub st st' -> b_out st' l = b_out st l -> done st l -> done st' l.
  Proof.
    intros S E (A & B). split.
    - intros r Hr Lr. destruct (A r Hr Lr) as [(n & m & X & Y)|X]; [left; exists n, m; split; [apply S; exact X|exact Y]|right; intros sid Hs; apply (offered_mono st); auto].
    - intros p (fl & Hp) sid Hs. apply (offered_mono st); auto. apply B; auto. exists fl. rewrite <- E. exact Hp.
  Qed.

  Lemma levels_ok : forall n l st, good st -> ql dom + 2 <= l - Z.of_nat n ->
    exists st', level_loop n (bound_of d k) l st = Some st' /\ good st' /\ sub st st' /\ (forall i, l <= i \/ i < l - Z.of_nat n -> b_out st' i = b_out st i) /\
      (forall i, l - Z.of_nat n < i <= l -> done st' i).
  Proof.
    induction n as [|n IH]; intros l st G Hl; cbn [Balance.level_loop].
    - exists st. split; [reflexivity|]. split; [exact G|]. split; [apply sub_refl|]. split; [auto|]. intros; lia.
    - pose proof G as (EI & _). assert (LI : length (b_in st) = length inl) by (rewrite <- EI, map_length; reflexivity). rewrite LI.
      destruct (jz_ok l (b_out st l) ltac:(lia) (length inl + length (b_out st l)) 0 st ltac:(lia) G eq_refl) as (st1 & E1 & G1 & S1 & F1 & A1 & B1). rewrite E1.
      assert (D1 : done st1 l).
      { split.
        - intros r Hr Lr. apply In_nth_error in Hr. destruct Hr as (i & Ei). apply (A1 i); auto. lia.
        - intros p (fl & Hp). rewrite (F1 l ltac:(lia)) in Hp. apply In_nth_error in Hp. destruct Hp as (i & Ei). apply (B1 i p fl); auto. lia. }
      destruct (IH (l - 1) st1 G1 ltac:(lia)) as (st2 & E2 & G2 & S2 & F2 & D2). exists st2. split; [exact E2|]. split; [exact G2|]. split; [apply (sub_trans _ st1); auto|]. split.
      + intros i Hi. rewrite F2, F1 by lia. reflexivity.
      + intros i Hi. destruct (Z.eq_dec i l) as [->|N]; [|apply D2; lia]. apply (done_mono st1); auto. apply F2. lia.
  Qed.

  (** ** The state after the loop over the levels *)
  Variable M : Z.
  Hypothesis HM : forall r, In r inl -> ql r <= M.

  Lemma phase_ok : exists st, level_loop (Z.to_nat (M - (minlevel dom + 1))) (bound_of d k) M (mkbst (map (fun q => (q, 0)) inl) (fun _ => [])) = Some st /\ good st /\
    (forall m n, inO st m n -> minlevel dom + 1 <= m < M) /\ (forall l, minlevel dom + 1 < l -> done st l).
  Proof.
    set (st0 := mkbst (map (fun q => (q, 0)) inl) (fun _ => [])).
    assert (G0 : good st0).
    { split; [cbn [b_in st0]; rewrite map_map; apply map_id|]. split; [intros m o fl []|]. intros r fl H. cbn [b_in st0] in H. apply in_map_iff in H. destruct H as (q & E & _). injection E as _ <-. split; intros X; discriminate X. }
    unfold minlevel. destruct (Z_le_dec (ql dom + 2) M) as [C|C].
    - destruct (levels_ok (Z.to_nat (M - (ql dom + 1 + 1))) M st0 G0 ltac:(lia)) as (st & E & G & S & F & D0). exists st. split; [exact E|]. split; [exact G|].
      assert (EMP : forall m n, inO st m n -> m < M).
      { intros m n (fl & H). destruct (Z_lt_dec m M) as [X|X]; [exact X|exfalso]. rewrite F in H by lia. destruct H. }
      split.
      + intros m n H. pose proof (EMP m n H). destruct (inO_good st m n G H) as (_ & _ & A & B & _). lia.
      + intros l Hl. destruct (Z_le_dec l M) as [X|X]; [apply D0; lia|]. split.
        * intros r Hr Lr. specialize (HM r Hr). lia.
        * intros p Hp. specialize (EMP l p Hp). lia.
    - replace (Z.to_nat (M - (ql dom + 1 + 1))) with 0%nat by lia. cbn [Balance.level_loop]. exists st0. split; [reflexivity|]. split; [exact G0|]. split; [intros m n (fl & [])|]. intros l Hl. split.
      + intros r Hr Lr. specialize (HM r Hr). lia.
      + intros p (fl & []).
  Qed.
End S.
