(** * p4est_build on one rank: what is held between the calls *)

From Coq Require Import ZArith List Bool Lia Arith ZifyBool Sorting.Sorted.
From Verif Require Import Quad Spec Interval QuadLemmas DescLemmas SearchLocal Tree TreeLemmas Adapt AdaptSpec ListLemmas RefineLemmas CoarsenProps Tiles
  Balance BalanceMerge Partition PartTrees PartFinal Comm Weighted Complete Forest ForestSpec ForestLemmas ForestAdapt Build BuildTree.
Import ListNotations.
Open Scope Z_scope.

Section Spec.
  Variables (St D : Type).
  Local Notation fn := (St -> Z -> quad -> St * D).

  (** the callback of each added quadrant is called in the order of the calls *)
  Fixpoint init_adds (s : St) (t : Z) (l : list (quad * fn)) : St * list (quad * D) :=
    match l with
    | [] => (s, [])
    | (q, f) :: l' => let (s1, v) := f s t q in let (s2, r) := init_adds s1 t l' in (s2, (q, v) :: r)
    end.

  (** the calls of p4est_build_add with the callback set at this time; [f] is set at the beginning *)
  Fixpoint adds_of (f : fn) (ops : list (bop St D)) : list (Z * quad * fn) :=
    match ops with
    | [] => []
    | OInit _ _ g :: ops' => adds_of g ops'
    | OAdd _ _ t q :: ops' => (t, q, f) :: adds_of f ops'
    end.
  Definition on_tree (t : Z) (l : list (Z * quad * fn)) : list (quad * fn) :=
    flat_map (fun x => let '(t', q, f) := x in if t' =? t then [(q, f)] else []) l.

  Definition quad_dec (a b : quad) : {a = b} + {a <> b}.
  Proof. decide equality; apply Z.eq_dec. Defined.
  (** without the quadrants that are equal to their predecessor *)
  Fixpoint uniq (prev : option quad) (l : list (quad * fn)) : list (quad * fn) :=
    match l with
    | [] => []
    | (q, f) :: l' =>
      match prev with
      | Some p => if quad_dec p q then uniq prev l' else (q, f) :: uniq (Some q) l'
      | None => (q, f) :: uniq (Some q) l'
      end
    end.
  (** true for calls that differ from the call before *)
  Fixpoint rets (prev : option (Z * quad)) (l : list (Z * quad * fn)) : list bool :=
    match l with
    | [] => []
    | (t, q, _) :: l' =>
      match prev with
      | Some (t', q') => negb ((t' =? t) && (if quad_dec q' q then true else false))
      | None => true
      end :: rets (Some (t, q)) l'
    end.

  Lemma init_adds_snoc t q f : forall l s, init_adds s t (l ++ [(q, f)]) = let (s1, r) := init_adds s t l in let (s2, v) := f s1 t q in (s2, r ++ [(q, v)]).
  Proof.
    induction l as [|(q', g) l IH]; intros s; cbn [init_adds app]; [destruct (f s t q); reflexivity|]. destruct (g s t q') as (s1, v). rewrite IH. destruct (init_adds s1 t l) as (s2, r).
    destruct (f s2 t q). reflexivity.
  Qed.
  Lemma init_adds_fst t : forall l s, map fst (snd (init_adds s t l)) = map fst l.
  Proof. induction l as [|(q, f) l IH]; intros s; cbn [init_adds]; [reflexivity|]. destruct (f s t q) as (s1, v). specialize (IH s1). destruct (init_adds s1 t l). cbn [snd map fst] in *. congruence. Qed.

  Definition lastq (l : list (quad * fn)) : option quad := match rev l with [] => None | x :: _ => Some (fst x) end.
  Lemma lastq_snoc l x : lastq (l ++ [x]) = Some (fst x).
  Proof. unfold lastq. rewrite rev_app_distr. reflexivity. Qed.
  Lemma lastq_some l q : lastq l = Some q -> exists l' f, l = l' ++ [(q, f)].
  Proof. unfold lastq. intros H. destruct (rev l) as [|(q', f) r] eqn:E; [discriminate|]. injection H as <-. exists (rev r), f. rewrite <- (rev_involutive l), E. reflexivity. Qed.
  Lemma lastq_none l : lastq l = None -> l = [].
  Proof. unfold lastq. destruct (rev l) eqn:E; [|discriminate]. intros _. rewrite <- (rev_involutive l), E. reflexivity. Qed.
End Spec.

Section Rank.
  Variable d : dim.
  Variables (St D : Type).
  Variable T : Z.
  Variable bsearch : list quad -> quad -> option nat.
  Variable init_fn : St -> Z -> quad -> St * D.
  Local Notation fn := (St -> Z -> quad -> St * D).
  Local Notation tlv x := (t_leaves D (ft D x)).
  Local Notation init_adds := (init_adds St D).
  Local Notation lastq := (lastq St D).
  Local Notation end_tree n := (end_tree d St D T bsearch n init_fn).
  Local Notation advance n := (advance d St D T bsearch n init_fn).

  Variable p : proc St D.
  Hypothesis OK : proc_ok d St D T p.
  Variables A E : Z -> Z.
  Hypothesis TL : forall t, 0 <= t < T -> tiles d (A t) (E t) (map fst (lvs St D p t)).
  Local Notation f := (pr_first St D p).
  Local Notation l := (pr_last St D p).
  Hypothesis LOC : 0 <= f <= l /\ l < T.

  Lemma local_ne t : f <= t <= l -> lvs St D p t <> [].
  Proof. intros H. destruct OK as ([(H1 & _)|(_ & _ & H3)] & _); cbn [rk_of k_first k_last k_trees] in *; [lia|]. apply H3. exact H. Qed.

  Lemma outside t : ~ f <= t <= l -> lvs St D p t = [].
  Proof.
    intros N. destruct OK as ([(_ & _ & H3)|(_ & _ & H3)] & _); [apply H3|]. specialize (H3 t). cbn [rk_of k_trees k_first k_last] in H3. fold (lvs St D p t) in H3.
    destruct (lvs St D p t) as [|x k]; [reflexivity|exfalso]. apply N. apply H3. discriminate.
  Qed.

  Definition blank (t : Z) (x : ftree D) : Prop :=
    tlv x = [] /\ t_off D (ft D x) = 0 /\ (forall i, t_pl D (ft D x) i = 0) /\ t_max D (ft D x) = t_max D (ft D (pr_trees St D p t)) /\
    ft_fd D x = ft_fd D (pr_trees St D p t) /\ ft_ld D x = ft_ld D (pr_trees St D p t).

  (** tree t is complete; [s] and [s'] are the states before its first and after its last callback *)
  Definition built (t : Z) (s s' : St) (ad : list (quad * fn)) (lv : list (quad * D)) : Prop :=
    coarsest_with d (A t) (E t) (map fst ad) (map fst lv) /\
    (s', lv) = refill d St D init_fn t (snd (init_adds s t ad)) (fst (init_adds s t ad)) (map fst lv).
  Definition fin (trees : Z -> ftree D) (ss : Z -> St) (AD : Z -> list (quad * fn)) (t : Z) : Prop :=
    ft_fd D (trees t) = ft_fd D (pr_trees St D p t) /\ ft_ld D (trees t) = ft_ld D (pr_trees St D p t) /\
    t_off D (ft D (trees t)) = cnt D trees f t /\ (forall i, t_pl D (ft D (trees t)) i = nlev i (tlv (trees t))) /\ t_max D (ft D (trees t)) = maxlev (tlv (trees t)) /\
    built t (ss t) (ss (t + 1)) (AD t) (tlv (trees t)).

  Definition inr (t : Z) (q : quad) : Prop := wf d q /\ A t <= qpos d q /\ qend d q <= E t.

  Definition inv (b : build St D) (cur : Z) (ss : Z -> St) (AD : Z -> list (quad * fn)) : Prop :=
    let trees := pr_trees St D (b_p St D b) in
    b_tree St D b = cur /\ f <= cur <= l /\ pr_first St D (b_p St D b) = f /\ pr_last St D (b_p St D b) = l /\ ss f = pr_s St D p /\
    (forall t, ~ f <= t <= cur -> blank t (trees t)) /\ (forall t, f <= t < cur -> fin trees ss AD t) /\
    ft_fd D (trees cur) = ft_fd D (pr_trees St D p cur) /\ ft_ld D (trees cur) = ft_ld D (pr_trees St D p cur) /\
    t_off D (ft D (trees cur)) = cnt D trees f cur /\ (forall i, t_pl D (ft D (trees cur)) i = nlev i (tlv (trees cur))) /\ t_max D (ft D (trees cur)) = maxlev (tlv (trees cur)) /\
    (pr_s St D (b_p St D b), tlv (trees cur)) = init_adds (ss cur) cur (AD cur) /\
    (forall e, In e (AD cur) -> inr cur (fst e)) /\ StronglySorted (before d) (map fst (AD cur)) /\
    b_max St D b = maxlev (lvs St D p cur) /\
    match lastq (AD cur) with None => ql (b_prev St D b) = -1 | Some q => b_prev St D b = q end /\
    (forall t, cur < t -> AD t = []).

  (** the same after p4est_build_end_tree *)
  Definition ended (b : build St D) (cur : Z) (ss : Z -> St) (AD : Z -> list (quad * fn)) : Prop :=
    let trees := pr_trees St D (b_p St D b) in
    b_tree St D b = cur /\ f <= cur <= l /\ pr_first St D (b_p St D b) = f /\ pr_last St D (b_p St D b) = l /\ ss f = pr_s St D p /\
    (forall t, ~ f <= t <= cur -> blank t (trees t)) /\ (forall t, f <= t <= cur -> fin trees ss AD t) /\
    pr_s St D (b_p St D b) = ss (cur + 1) /\ (forall t, cur < t -> AD t = []).

  Lemma upd_same {X} (g : Z -> X) t v : upd g t v t = v.
  Proof. unfold upd. rewrite Z.eqb_refl. reflexivity. Qed.
  Lemma upd_other {X} (g : Z -> X) t v u : u <> t -> upd g t v u = g u.
  Proof. intros H. unfold upd. replace (u =? t) with false by lia. reflexivity. Qed.

  Lemma fin_ext trees trees' ss ss' AD AD' t : f <= t -> (forall u, f <= u <= t -> trees' u = trees u) -> ss' t = ss t -> ss' (t + 1) = ss (t + 1) -> AD' t = AD t ->
    fin trees ss AD t -> fin trees' ss' AD' t.
  Proof.
    intros L EX S1 S2 EA (H1 & H2 & H3 & H4 & H5 & H6). unfold fin. rewrite (EX t) by lia. rewrite S1, S2, EA. split; [exact H1|]. split; [exact H2|].
    split; [|auto]. rewrite H3. apply cnt_ext. intros u Hu. rewrite EX by lia. reflexivity.
  Qed.

  Lemma new_inv : exists b, build_new St D T init_fn p = Some b /\ inv b f (fun _ => pr_s St D p) (fun _ => []) /\ b_add St D b = init_fn.
  Proof.
    unfold build_new. replace (pr_first St D p >=? 0) with true by lia. unfold begin_tree. replace ((0 <=? pr_first St D p) && (pr_first St D p <? T)) with true by lia.
    eexists. split; [reflexivity|]. split; [|reflexivity]. unfold inv. cbn [b_p b_tree b_max b_prev set_tree pr_trees pr_first pr_last pr_s ft t_max t_leaves t_pl t_off].
    split; [reflexivity|]. split; [lia|]. split; [reflexivity|]. split; [reflexivity|]. split; [reflexivity|].
    split. { intros t Ht. rewrite upd_other by lia. unfold blank. cbn [ft t_leaves t_off t_pl t_max ft_fd ft_ld]. auto 10. }
    split; [intros; lia|]. rewrite !upd_same. cbn [ft_fd ft_ld ft t_off t_pl t_max t_leaves].
    split; [reflexivity|]. split; [reflexivity|]. split; [symmetry; apply cnt_nil; intros; lia|]. split; [reflexivity|]. split; [reflexivity|]. split; [reflexivity|].
    split; [intros e []|]. split; [constructor|]. split; [|split; [reflexivity|reflexivity]].
    destruct OK as (_ & _ & TR). destruct (TR f ltac:(lia)) as (_ & _ & M & _). exact M.
  Qed.

  Lemma end_tree_ok b cur ss AD : inv b cur ss AD -> exists n b' ss', end_tree n b = Some (b', cnt D (pr_trees St D (b_p St D b')) f (cur + 1)) /\ ended b' cur ss' AD /\ b_add St D b' = b_add St D b.
  Proof.
    intros (I1 & I2 & I3 & I4 & I4' & I5 & I6 & I7 & I8 & I9 & I10 & I11 & I12 & I13 & I14 & I15 & I16 & I17). set (trees := pr_trees St D (b_p St D b)) in *.
    destruct OK as (_ & _ & TR). destruct (TR cur ltac:(lia)) as (_ & _ & _ & DS). rewrite <- I7, <- I8 in DS.
    assert (MF : map fst (tlv (trees cur)) = map fst (AD cur)) by (replace (tlv (trees cur)) with (snd (init_adds (ss cur) cur (AD cur))) by (rewrite <- I12; reflexivity); apply init_adds_fst).
    destruct (end_spec d bsearch St D init_fn cur (trees cur) (lvs St D p cur) (A cur) (E cur) (pr_s St D (b_p St D b)) (local_ne cur I2) (TL cur ltac:(lia)) DS) as (n & s' & x' & EQ & O & P & M & CO & RF); auto.
    { rewrite MF. apply Forall_forall. intros q Hq. apply in_map_iff in Hq. destruct Hq as (e & <- & He). apply I13. exact He. }
    { rewrite MF. exact I14. }
    { intros e He. apply (in_map fst) in He. rewrite MF in He. apply in_map_iff in He. destruct He as (e' & <- & He). apply I13. exact He. }
    exists n. unfold Build.end_tree. rewrite I1. replace ((0 <=? cur) && (cur <? T)) with true by lia. rewrite I15. fold trees. rewrite EQ.
    do 2 eexists. split; [f_equal; f_equal|].
    2:{ split; [|reflexivity]. unfold ended. cbn [b_p b_tree set_tree pr_trees pr_first pr_last pr_s].
      assert (OLD : forall u, u <> cur -> upd trees cur (mkft D x' (ft_fd D (trees cur)) (ft_ld D (trees cur))) u = trees u) by (intros; apply upd_other; auto).
      split; [reflexivity|]. split; [exact I2|]. split; [exact I3|]. split; [exact I4|]. split; [instantiate (1 := upd ss (cur + 1) s'); rewrite upd_other by lia; exact I4'|].
      split; [intros t Ht; rewrite OLD by lia; apply I5; exact Ht|]. split; [|split; [symmetry; apply upd_same|exact I17]].
      intros t Ht. destruct (Z.eq_dec t cur) as [->|N].
      - unfold fin. rewrite !upd_same. cbn [ft ft_fd ft_ld]. split; [exact I7|]. split; [exact I8|]. split; [rewrite O, I9; apply cnt_ext; intros u Hu; rewrite OLD by lia; reflexivity|].
        split; [exact P|]. split; [exact M|]. rewrite upd_other by lia. split; [rewrite <- MF; exact CO|]. rewrite <- I12. cbn [fst snd]. exact RF.
      - apply (fin_ext trees _ ss _ AD); [lia|intros; apply OLD; lia|apply upd_other; lia|apply upd_other; lia|reflexivity|apply I6; lia]. }
    cbn [b_p set_tree pr_trees]. fold trees. rewrite cnt_step by lia. rewrite upd_same. cbn [ft]. rewrite O, I9. f_equal. apply cnt_ext. intros u Hu. rewrite upd_other by lia. reflexivity.
  Qed.

  Lemma begin_ok b cur ss AD : ended b cur ss AD -> cur < l -> exists b', begin_tree St D T b (cur + 1) (cnt D (pr_trees St D (b_p St D b)) f (cur + 1)) = Some b' /\ inv b' (cur + 1) ss AD /\ b_add St D b' = b_add St D b.
  Proof.
    intros (I1 & I2 & I3 & I4 & I4' & I5 & I6 & I7 & I8) L. set (trees := pr_trees St D (b_p St D b)) in *. unfold begin_tree. replace ((0 <=? cur + 1) && (cur + 1 <? T)) with true by lia.
    eexists. split; [reflexivity|]. split; [|reflexivity]. unfold inv. cbn [b_p b_tree b_max b_prev set_tree pr_trees pr_first pr_last pr_s ft t_max t_leaves t_pl t_off]. fold trees.
    destruct (I5 (cur + 1) ltac:(lia)) as (B1 & B2 & B3 & B4 & B5 & B6).
    set (y := mkft D _ _ _). assert (OLD : forall u, u <> cur + 1 -> upd trees (cur + 1) y u = trees u) by (intros; apply upd_other; auto).
    split; [reflexivity|]. split; [lia|]. split; [exact I3|]. split; [exact I4|]. split; [exact I4'|].
    split; [intros t Ht; rewrite OLD by lia; apply I5; lia|]. split; [intros t Ht; apply (fin_ext trees _ ss _ AD); [lia|intros; apply OLD; lia|reflexivity|reflexivity|reflexivity|apply I6; lia]|].
    rewrite !upd_same. unfold y. cbn [ft_fd ft_ld ft t_off t_pl t_max t_leaves]. rewrite B1. rewrite I8 by lia.
    split; [exact B5|]. split; [exact B6|]. split; [apply cnt_ext; intros u Hu; rewrite upd_other by lia; reflexivity|]. split; [exact B3|]. split; [reflexivity|].
    split; [cbn [BuildRank.init_adds]; rewrite I7; reflexivity|]. split; [intros e []|]. split; [constructor|]. split; [|split; [reflexivity|intros; apply I8; lia]].
    rewrite B4. destruct OK as (_ & _ & TR). destruct (TR (cur + 1) ltac:(lia)) as (_ & _ & M & _). exact M.
  Qed.

  Lemma advance_ok : forall k b cur ss AD, inv b cur ss AD -> cur + Z.of_nat k <= l ->
    exists n b' ss', advance n k b = Some b' /\ inv b' (cur + Z.of_nat k) ss' AD /\ b_add St D b' = b_add St D b.
  Proof.
    induction k as [|k IH]; intros b cur ss AD I L.
    - exists 0%nat, b, ss. replace (cur + Z.of_nat 0) with cur by lia. auto.
    - destruct (end_tree_ok b cur ss AD I) as (n1 & b1 & ss1 & E1 & I1 & A1). destruct (begin_ok b1 cur ss1 AD I1 ltac:(lia)) as (b2 & E2 & I2 & A2).
      destruct (IH b2 (cur + 1) ss1 AD I2 ltac:(lia)) as (n2 & b3 & ss3 & E3 & I3 & A3). exists (Nat.max n1 n2), b3, ss3. cbn [Build.advance].
      rewrite (end_tree_mono d bsearch St D init_fn T n1 (Nat.max n1 n2) b _ ltac:(lia) E1). replace (b_tree St D b1) with cur by (symmetry; apply I1). rewrite E2.
      rewrite (advance_mono d bsearch St D init_fn T n2 (Nat.max n1 n2) ltac:(lia) _ _ _ E3). replace (cur + Z.of_nat (S k)) with (cur + 1 + Z.of_nat k) by lia. split; [reflexivity|]. split; [exact I3|congruence].
  Qed.

  Lemma add_ok b cur ss AD t q : inv b cur ss AD -> cur <= t <= l -> inr t q ->
    (forall q0, lastq (AD t) = Some q0 -> q0 = q \/ qend d q0 <= qpos d q) ->
    exists n b' ss' r, build_add d St D T bsearch n init_fn b t q = Some (b', r) /\ b_add St D b' = b_add St D b /\
      (if r then lastq (AD t) <> Some q /\ inv b' t ss' (upd AD t (AD t ++ [(q, b_add St D b)])) else lastq (AD t) = Some q /\ inv b' t ss' AD).
  Proof.
    intros I L R Q. destruct (advance_ok (Z.to_nat (t - cur)) b cur ss AD I ltac:(lia)) as (n & b1 & ss1 & E1 & I1 & A1). replace (cur + Z.of_nat (Z.to_nat (t - cur))) with t in I1 by lia.
    exists n. unfold build_add. replace (b_tree St D b) with cur by (symmetry; apply I). rewrite E1. clear I E1 L.
    destruct I1 as (I1 & I2 & I3 & I4 & I4' & I5 & I6 & I7 & I8 & I9 & I10 & I11 & I12 & I13 & I14 & I15 & I16 & I17). set (trees := pr_trees St D (b_p St D b1)) in *.
    rewrite I1. replace ((0 <=? t) && (t <? T)) with true by lia. destruct R as (Wq & R1 & R2).
    destruct ((ql (b_prev St D b1) >=? 0) && is_equal d (b_prev St D b1) q) eqn:C.
    - exists b1, ss1, false. split; [reflexivity|]. split; [exact A1|]. destruct (lastq (AD t)) as [q0|] eqn:EL; [|lia]. apply andb_true_iff in C. destruct C as (_ & C).
      assert (W0 : wf d q0) by (apply lastq_some in EL; destruct EL as (l0 & f0 & EL); apply (I13 (q0, f0)); rewrite EL; apply in_or_app; right; left; reflexivity).
      rewrite I16 in C. apply is_equal_eq in C; auto. split; [congruence|]. unfold inv. fold trees. rewrite EL. auto 20.
    - fold trees. destruct (b_add St D b1 (pr_s St D (b_p St D b1)) t q) as (s', v) eqn:EF. do 2 eexists. exists true. split; [reflexivity|]. split; [exact A1|].
      assert (NL : lastq (AD t) <> Some q).
      { intros EL. rewrite EL in I16. rewrite I16 in C. rewrite (proj2 (is_equal_eq d q q Wq Wq) eq_refl) in C. pose proof (wf_level d q Wq). lia. }
      split; [exact NL|]. unfold inv. cbn [b_p b_tree b_max b_prev set_tree pr_trees pr_first pr_last pr_s ft t_max t_leaves t_pl t_off]. fold trees.
      set (y := mkft D _ _ _). assert (OLD : forall u, u <> t -> upd trees t y u = trees u) by (intros; apply upd_other; auto).
      split; [reflexivity|]. split; [exact I2|]. split; [exact I3|]. split; [exact I4|]. split; [exact I4'|].
      split; [intros u Hu; rewrite OLD by lia; apply I5; exact Hu|].
      split; [intros u Hu; apply (fin_ext trees _ ss1 _ AD); [lia|intros; apply OLD; lia|reflexivity|reflexivity|apply upd_other; lia|apply I6; lia]|].
      rewrite !upd_same. unfold y. cbn [ft_fd ft_ld ft t_off t_pl t_max t_leaves].
      split; [exact I7|]. split; [exact I8|]. split; [rewrite I9; apply cnt_ext; intros u Hu; rewrite upd_other by lia; reflexivity|].
      split. { intros i. rewrite nlev_app. unfold bump. rewrite I10. rewrite nlev_cons. change (nlev i (@nil (quad * D))) with 0. cbn [fst]. rewrite (Z.eqb_sym (ql q) i). destruct (i =? ql q); lia. }
      split. { rewrite maxlev_app, I11. unfold maxlev at 4. cbn [fold_right fst]. pose proof (wf_level d q Wq). pose proof (maxlev_nonneg (tlv (trees t))). destruct (ql q >? maxlev (tlv (trees t))) eqn:G; lia. }
      split. { rewrite init_adds_snoc, <- I12. rewrite <- A1, EF. reflexivity. }
      split. { intros e He. apply in_app_or in He. destruct He as [He|[<-|[]]]; [apply I13; exact He|]. split; [exact Wq|]. auto. }
      split.
      { rewrite map_app. cbn [map fst]. destruct (lastq (AD t)) as [q0|] eqn:EL.
        - pose proof EL as EL'. apply lastq_some in EL'. destruct EL' as (l0 & f0 & EL'). destruct (Q q0 eq_refl) as [->|Q']; [congruence|].
          assert (BEF : forall x, In x (map fst (AD t)) -> qend d x <= qpos d q).
          { intros x Hx. rewrite EL' in Hx, I14, I13. rewrite map_app in Hx, I14. cbn [map fst] in Hx, I14. apply in_app_or in Hx. destruct Hx as [Hx|[<-|[]]]; [|exact Q'].
            assert (W0 : wf d q0) by (apply (I13 (q0, f0)); apply in_or_app; right; left; reflexivity). pose proof (size_pos d q0 W0).
            assert (qend d x <= qpos d q0); [|lia]. clear - I14 Hx. induction (map fst l0) as [|z k IH]; [destruct Hx|]. cbn [app] in I14. inversion I14 as [|? ? S F]; subst. destruct Hx as [<-|Hx]; [|auto].
            rewrite Forall_forall in F. apply F. apply in_or_app. right. left. reflexivity. }
          clear - I14 BEF. induction (map fst (AD t)) as [|z k IH]; cbn [app]; [repeat constructor|]. inversion I14 as [|? ? S F]; subst. constructor; [apply IH; auto; intros; apply BEF; right; auto|].
          apply Forall_forall. intros x Hx. apply in_app_or in Hx. destruct Hx as [Hx|[<-|[]]]; [rewrite Forall_forall in F; apply F; exact Hx|apply BEF; left; reflexivity].
        - apply lastq_none in EL. rewrite EL. repeat constructor. }
      split; [exact I15|]. split; [rewrite lastq_snoc; reflexivity|]. intros u Hu. rewrite upd_other by lia. apply I17. exact Hu.
  Qed.

  (** what is asked of the calls *)
  Definition after (a b : Z * quad * fn) : Prop :=
    fst (fst a) < fst (fst b) \/ fst (fst a) = fst (fst b) /\ (snd (fst a) = snd (fst b) \/ qend d (snd (fst a)) <= qpos d (snd (fst b))).

  Lemma on_tree_none t (L : list (Z * quad * fn)) : (forall x, In x L -> fst (fst x) <> t) -> on_tree St D t L = [].
  Proof. induction L as [|((t', q), g) L IH]; intros H; [reflexivity|]. cbn [on_tree flat_map]. pose proof (H _ (or_introl eq_refl)) as H0. cbn in H0. replace (t' =? t) with false by lia. apply IH. intros x Hx. apply H. right. exact Hx. Qed.

  Lemma run_ok : forall ops b cur ss AD prev, inv b cur ss AD ->
    let L := adds_of St D (b_add St D b) ops in
    (forall x, In x L -> cur <= fst (fst x) <= l /\ inr (fst (fst x)) (snd (fst x)) /\ forall q0, lastq (AD (fst (fst x))) = Some q0 -> q0 = snd (fst x) \/ qend d q0 <= qpos d (snd (fst x))) ->
    StronglySorted after L ->
    (forall t q, cur <= t -> (prev = Some (t, q) <-> t = cur /\ lastq (AD cur) = Some q)) ->
    exists n b' cur' ss' AD', run d St D T bsearch n init_fn ops b = Some (b', rets St D prev L) /\ inv b' cur' ss' AD' /\
      forall t, AD' t = AD t ++ uniq St D (lastq (AD t)) (on_tree St D t L).
  Proof.
    induction ops as [|[g|t q] ops IH]; intros b cur ss AD prev I L HL SL HP; subst L; cbn [adds_of run] in *.
    - exists 0%nat, b, cur, ss, AD. split; [reflexivity|]. split; [exact I|]. intros t. cbn. rewrite app_nil_r. reflexivity.
    - destruct (IH (build_init_add St D b g) cur ss AD prev) as (n & b' & cur' & ss' & AD' & H); [exact I|exact HL|exact SL|exact HP|]. exists n, b', cur', ss', AD'. exact H.
    - destruct (HL _ (or_introl eq_refl)) as (H1 & H2 & H3). cbn [fst snd] in H1, H2, H3. inversion SL as [|? ? SL' FL]; subst. rewrite Forall_forall in FL.
      destruct (add_ok b cur ss AD t q I H1 H2 H3) as (n1 & b1 & ss1 & r & E1 & A1 & I1).
      assert (RET : match prev with Some (t', q') => negb ((t' =? t) && (if quad_dec q' q then true else false)) | None => true end = r).
      { destruct r; destruct I1 as (I1 & _).
        - destruct prev as [(t', q')|]; [|reflexivity]. destruct (Z.eq_dec t' t) as [->|N]; [|replace (t' =? t) with false by lia; reflexivity]. rewrite Z.eqb_refl. destruct (quad_dec q' q) as [->|N]; [|reflexivity].
          exfalso. apply I1. destruct (proj1 (HP t q ltac:(lia)) eq_refl) as (-> & EL). exact EL.
        - assert (EC : t = cur) by (destruct (Z.eq_dec t cur); [auto|exfalso]; destruct I as (_ & _ & _ & _ & _ & _ & _ & _ & _ & _ & _ & _ & _ & _ & _ & _ & _ & I17); rewrite I17 in I1 by lia; discriminate).
          rewrite (proj2 (HP t q ltac:(lia))) by (split; [exact EC|rewrite <- EC; exact I1]). rewrite Z.eqb_refl. destruct (quad_dec q q); [reflexivity|congruence]. }
      assert (GE : forall x, In x (adds_of St D (b_add St D b) ops) -> t <= fst (fst x) <= l /\ inr (fst (fst x)) (snd (fst x)) /\ (fst (fst x) = t -> q = snd (fst x) \/ qend d q <= qpos d (snd (fst x)))).
      { intros x Hx. destruct (HL x (or_intror Hx)) as (G1 & G2 & _). specialize (FL x Hx). unfold after in FL. cbn [fst snd] in FL. split; [lia|]. split; [exact G2|]. intros EX. destruct FL as [F|(_ & F)]; [lia|exact F]. }
      set (AD1 := if r then upd AD t (AD t ++ [(q, b_add St D b)]) else AD).
      assert (I1' : inv b1 t ss1 AD1) by (unfold AD1; destruct r; apply I1).
      assert (LQ : lastq (AD1 t) = Some q) by (unfold AD1; destruct r; [rewrite upd_same; apply lastq_snoc|apply I1]).
      destruct (IH b1 t ss1 AD1 (Some (t, q)) I1') as (n2 & b2 & cur2 & ss2 & AD2 & E2 & I2 & H2').
      { rewrite A1. intros x Hx. destruct (GE x Hx) as (G1 & G2 & G3). split; [exact G1|]. split; [exact G2|]. intros q0 EQ0. destruct (Z.eq_dec (fst (fst x)) t) as [EX|NX].
        - rewrite EX, LQ in EQ0. injection EQ0 as <-. apply G3. exact EX.
        - unfold AD1 in EQ0. apply (HL x (or_intror Hx)). destruct r; [rewrite upd_other in EQ0 by exact NX|]; exact EQ0. }
      { rewrite A1. exact SL'. }
      { intros t' q' Ht'. split; [intros EQ; injection EQ as <- <-; split; [reflexivity|exact LQ]|]. intros (-> & EQ). rewrite LQ in EQ. injection EQ as <-. reflexivity. }
      exists (Nat.max n1 n2), b2, cur2, ss2, AD2. rewrite (add_mono d bsearch St D init_fn T n1 (Nat.max n1 n2) _ _ _ _ ltac:(lia) E1). rewrite (run_mono d bsearch St D init_fn T n2 (Nat.max n1 n2) ltac:(lia) _ _ _ E2).
      rewrite A1. split; [cbn [rets]; rewrite RET; reflexivity|]. split; [exact I2|]. intros u. rewrite H2', A1. cbn [on_tree flat_map]. fold (on_tree St D u (adds_of St D (b_add St D b) ops)).
      destruct (Z.eq_dec t u) as [<-|N].
      + rewrite Z.eqb_refl. cbn [app]. rewrite LQ. unfold AD1. destruct r; destruct I1 as (I1 & _).
        * rewrite upd_same, <- app_assoc. cbn [app uniq]. f_equal. destruct (lastq (AD t)) as [q0|]; [|reflexivity]. destruct (quad_dec q0 q); [congruence|reflexivity].
        * rewrite I1. cbn [uniq]. destruct (quad_dec q q); [reflexivity|congruence].
      + replace (t =? u) with false by lia. cbn [app]. unfold AD1. destruct r; [rewrite upd_other by auto|]; reflexivity.
  Qed.

  (** the ranges have leaves *)
  Lemma built_ne t s s' ad lv : f <= t <= l -> built t s s' ad lv -> lv <> [].
  Proof.
    intros H ((TI & _) & _). pose proof (local_ne t H) as NE. pose proof (TL t ltac:(lia)) as TI0. apply tiles_empty in TI. apply tiles_empty in TI0. intros ->. cbn in TI. destruct TI as [TI _]. specialize (TI eq_refl).
    destruct TI0 as [_ TI0]. specialize (TI0 TI). apply map_eq_nil in TI0. exact (NE TI0).
  Qed.

  Lemma finish_ok b cur ss AD : inv b cur ss AD ->
    exists n p' ss', build_finish d St D T bsearch n init_fn b = Some p' /\ adapted d St D T p p' /\
      ss' f = pr_s St D p /\ ss' (l + 1) = pr_s St D p' /\ forall t, f <= t <= l -> built t (ss' t) (ss' (t + 1)) (AD t) (lvs St D p' t).
  Proof.
    intros I. pose proof I as (I1 & I2 & I3 & I4 & _).
    destruct (advance_ok (Z.to_nat (l - cur)) b cur ss AD I ltac:(lia)) as (n1 & b1 & ss1 & E1 & J1 & _). replace (cur + Z.of_nat (Z.to_nat (l - cur))) with l in J1 by lia.
    destruct (end_tree_ok b1 l ss1 AD J1) as (n2 & b2 & ss2 & E2 & J2 & _). exists (Nat.max n1 n2). unfold build_finish. rewrite I3, I4, I1. replace (f <=? l) with true by lia.
    rewrite (advance_mono d bsearch St D init_fn T n1 (Nat.max n1 n2) ltac:(lia) _ _ _ E1). rewrite (end_tree_mono d bsearch St D init_fn T n2 (Nat.max n1 n2) _ _ ltac:(lia) E2).
    do 2 eexists. split; [reflexivity|]. clear I I1 I2 I3 I4 E1 E2 J1. destruct J2 as (I1 & I2 & I3 & I4 & I4' & I5 & I6 & I7 & I8). set (trees := pr_trees St D (b_p St D b2)) in *.
    rewrite I3, I4. set (num := cnt D trees f (l + 1)). set (trees' := trail D T (l + 1) num trees).
    assert (LV : forall t, tlv (trees' t) = tlv (trees t)) by (intros t; unfold trees', trail; destruct ((l + 1 <=? t) && (t <? T)); reflexivity).
    assert (FI : forall t, t_pl D (ft D (trees' t)) = t_pl D (ft D (trees t)) /\ t_max D (ft D (trees' t)) = t_max D (ft D (trees t)) /\ ft_fd _ (trees' t) = ft_fd _ (trees t) /\ ft_ld _ (trees' t) = ft_ld _ (trees t)).
    { intros t. unfold trees', trail. destruct ((l + 1 <=? t) && (t <? T)); auto. }
    assert (EM : forall t, ~ f <= t <= l -> tlv (trees t) = []) by (intros t Ht; apply I5; exact Ht).
    assert (NE : forall t, f <= t <= l -> tlv (trees t) <> []) by (intros t Ht; destruct (I6 t Ht) as (_ & _ & _ & _ & _ & B); apply (built_ne t _ _ _ _ Ht B)).
    assert (CN : forall t, cnt D trees' 0 t = cnt D trees 0 t) by (intros; apply cnt_ext; intros; apply LV).
    assert (C0 : forall t, 0 <= t <= f -> cnt D trees 0 t = 0) by (intros t Ht; apply cnt_nil; intros; apply EM; lia).
    assert (C1 : forall t, f <= t -> cnt D trees 0 t = cnt D trees f t) by (intros t Ht; rewrite (cnt_split D trees 0 f t), C0 by lia; lia).
    assert (C2 : forall t, l < t -> cnt D trees 0 t = num) by (intros t Ht; rewrite C1 by lia; unfold num; rewrite (cnt_split D trees f (l + 1) t) by lia; rewrite (cnt_nil D trees (l + 1) t) by (intros; apply EM; lia); lia).
    split; [|split; [exact I4'|split; [symmetry; exact I7|]]].
    - split; [|split; [reflexivity|split; [reflexivity|]]].
      + split; [|split].
        * right. cbn [rk_of k_first k_last k_trees pr_first pr_last pr_trees]. split; [lia|]. split; [lia|]. intros t. rewrite LV. split; [intros H; destruct (Z_le_gt_dec f t) as [Y1|Y1]; destruct (Z_le_gt_dec t l) as [Y2|Y2]; try lia; exfalso; apply H; apply EM; lia|apply NE].
        * cbn [pr_num]. rewrite before_cnt. cbn [pr_trees]. fold trees'. rewrite CN. rewrite C2 by lia. reflexivity.
        * intros t Ht. cbv zeta. rewrite before_cnt. unfold lvs. cbn [pr_trees]. fold trees'. rewrite CN. destruct (FI t) as (F1 & F2 & F3 & F4). rewrite F1, F2, F3, F4, LV.
          destruct OK as (RK & _ & TR). destruct (TR t Ht) as (_ & _ & M & DS).
          destruct (Z_le_gt_dec f t) as [G1|G1]; [destruct (Z_le_gt_dec t l) as [G2|G2]|].
          -- destruct (I6 t ltac:(lia)) as (H1 & H2 & H3 & H4 & H5 & (H6 & _) & _).
             split; [|split; [exact H4|split; [exact H5|]]].
             ++ rewrite C1 by lia. rewrite <- H3. unfold trees', trail. replace (l + 1 <=? t) with false by lia. reflexivity.
             ++ rewrite H1, H2. eapply (descs_keep d D); [exact DS|apply TL; exact Ht|exact H6].
          -- destruct (I5 t ltac:(lia)) as (B1 & B2 & B3 & B4 & B5 & B6). rewrite B1. split; [rewrite C2 by lia; unfold trees', trail; replace ((l + 1 <=? t) && (t <? T)) with true by lia; reflexivity|].
             assert (E0 : lvs St D p t = []) by (apply outside; lia).
             split; [exact B3|]. split; [rewrite B4, M, E0; reflexivity|]. rewrite B5, B6. rewrite E0 in DS. exact DS.
          -- destruct (I5 t ltac:(lia)) as (B1 & B2 & B3 & B4 & B5 & B6). rewrite B1. split; [rewrite C0 by lia; unfold trees', trail; replace ((l + 1 <=? t) && (t <? T)) with false by lia; exact B2|].
             assert (E0 : lvs St D p t = []) by (apply outside; lia).
             split; [exact B3|]. split; [rewrite B4, M, E0; reflexivity|]. rewrite B5, B6. rewrite E0 in DS. exact DS.
      + intros t a b' Ht H. unfold lvs at 1. cbn [pr_trees]. fold trees'. rewrite LV.
        destruct (Z_le_gt_dec f t) as [G1|G1]; [destruct (Z_le_gt_dec t l) as [G2|G2]|].
        * destruct (I6 t ltac:(lia)) as (_ & _ & _ & _ & _ & (H6 & _) & _). pose proof (TL t Ht) as H'. pose proof (local_ne t ltac:(lia)) as NE0.
          destruct (lvs St D p t) as [|x k]; [congruence|]. destruct (last_tiles d D _ _ _ _ H) as (_ & Z1 & _). destruct (last_tiles d D _ _ _ _ H') as (_ & Z2 & _). cbn [map tiles] in H, H'.
          replace a with (A t) by lia. replace b' with (E t) by lia. exact H6.
        * rewrite EM by lia. rewrite outside in H by lia. exact H.
        * rewrite EM by lia. rewrite outside in H by lia. exact H.
    - intros t Ht. unfold lvs. cbn [pr_trees]. fold trees'. rewrite LV. destruct (I6 t Ht) as (_ & _ & _ & _ & _ & B). exact B.
  Qed.
End Rank.
