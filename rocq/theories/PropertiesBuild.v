(** * Properties of p4est_build: C42, and of the enlargement of quadrants: C54 *)

From Coq Require Import ZArith List Bool Lia Arith ZifyBool Sorting.Sorted.
From Verif Require Import Quad Spec Interval QuadLemmas DescLemmas SearchLocal Tree TreeLemmas Adapt AdaptSpec ListLemmas RefineLemmas CoarsenProps Tiles
  Balance BalanceMerge Partition PartTrees PartFinal Comm OwnerLemmas Weighted Complete Forest ForestSpec ForestLemmas ForestAdapt Build BuildTree BuildRank Enlarge PropertiesForest.
Import ListNotations.
Open Scope Z_scope.

(** ** C42 *)
Section Statement.
  Variable d : dim.
  Variables (St D : Type).
  Local Notation fn := (St -> Z -> quad -> St * D).

  (** what is asked of the calls on one rank: a local tree, a quadrant inside the range of this
      tree on this rank, in the order of the curve; a quadrant may be added several times in a row *)
  Definition calls_ok (p : proc St D) (L : list (Z * quad * fn)) : Prop :=
    (forall t q f, In (t, q, f) L -> pr_first _ _ p <= t <= pr_last _ _ p /\ wf d q /\
       qpos d (ft_fd D (pr_trees _ _ p t)) <= qpos d q /\ qend d q <= qend d (ft_ld D (pr_trees _ _ p t))) /\
    StronglySorted (after d St D) L.

  (** what one rank holds in the end: the same trees; each tree has the coarsest leaves on the same
      range that contain the added quadrants.  [ss t] is the state of the callbacks before tree t:
      the callbacks of the added quadrants run first, each once in the order of the calls, then
      [init_fn] for the other leaves in their order. *)
  Definition rank_built (init_fn : fn) (p p' : proc St D) (L : list (Z * quad * fn)) : Prop :=
    pr_first _ _ p' = pr_first _ _ p /\ pr_last _ _ p' = pr_last _ _ p /\
    exists ss : Z -> St, ss (pr_first _ _ p) = pr_s _ _ p /\ ss (pr_last _ _ p + 1) = pr_s _ _ p' /\
      forall t, pr_first _ _ p <= t <= pr_last _ _ p ->
        let added := init_adds St D (ss t) t (uniq St D None (on_tree St D t L)) in
        coarsest_with d (qpos d (ft_fd D (pr_trees _ _ p t))) (qend d (ft_ld D (pr_trees _ _ p t))) (map fst (snd added)) (map fst (lvs St D p' t)) /\
        (ss (t + 1), lvs St D p' t) = refill d St D init_fn t (snd added) (fst added) (map fst (lvs St D p' t)).
End Statement.

Lemma no_adds {St D} (g : St -> Z -> quad -> St * D) d T bsearch n init_fn : forall ops b, adds_of St D g ops = [] ->
  exists b', run d St D T bsearch n init_fn ops b = Some (b', []) /\ b_p St D b' = b_p St D b.
Proof.
  intros ops. revert g. induction ops as [|[h|t q] ops IH]; intros g b H; cbn [run adds_of] in *; [exists b; auto| |discriminate].
  destruct (IH h (build_init_add St D b h) H) as (b' & E1 & E2). exists b'. auto.
Qed.

Lemma rank_ok d St D T bsearch init_fn p ops : proc_ok d St D T p -> (forall t, 0 <= t < T -> tiled d D (lvs St D p t)) -> calls_ok d St D p (adds_of St D init_fn ops) ->
  exists n p', build_rank d St D T bsearch n init_fn p ops = Some (p', rets St D None (adds_of St D init_fn ops)) /\ adapted d St D T p p' /\ rank_built d St D init_fn p p' (adds_of St D init_fn ops).
Proof.
  intros OK TD (C1 & C2). destruct (local_cases d St D T p OK) as [(F1 & F2)|LOC].
  - assert (EA : adds_of St D init_fn ops = []) by (destruct (adds_of St D init_fn ops) as [|((t, q), f) L]; [reflexivity|exfalso; destruct (C1 t q f (or_introl eq_refl)); lia]).
    assert (EM : forall t, lvs St D p t = []) by (destruct OK as ([(_ & _ & H)|(H & _)] & _); [exact H|cbn in H; lia]).
    exists 0%nat. unfold build_rank, build_new. rewrite F1. cbn [Z.geb Z.compare]. rewrite EA.
    match goal with |- context [run _ _ _ _ _ _ _ _ ?b0] => destruct (no_adds init_fn d T bsearch 0 init_fn ops b0 EA) as (b' & E1 & E2); rewrite E1 end.
    unfold build_finish. rewrite E2. cbn [b_p pr_first pr_last]. rewrite F2. cbn [Z.leb Z.compare]. eexists. split; [reflexivity|]. split.
    + split; [|split; [cbn [pr_first]; lia|split; [cbn [pr_last]; lia|]]].
      * split; [left; cbn [rk_of k_first k_last k_trees pr_first pr_last pr_trees ft t_leaves]; auto|]. split.
        -- cbn [pr_num]. rewrite before_cnt. symmetry. apply cnt_nil. intros; reflexivity.
        -- intros t Ht. cbv zeta. destruct OK as (_ & _ & TR). destruct (TR t Ht) as (_ & _ & M & DS). unfold lvs. cbn [pr_trees ft t_off t_pl t_max t_leaves ft_fd ft_ld].
           split; [rewrite before_cnt; symmetry; apply cnt_nil; intros; reflexivity|]. split; [reflexivity|]. rewrite EM in *. split; [exact M|exact DS].
      * intros t a b Ht H. rewrite EM in H. exact H.
    + split; [cbn; lia|]. split; [cbn; lia|]. exists (fun _ => pr_s St D p). split; [reflexivity|]. split; [reflexivity|]. rewrite F1, F2. intros; lia.
  - set (A := fun t => if (pr_first _ _ p <=? t) && (t <=? pr_last _ _ p) then qpos d (ft_fd D (pr_trees _ _ p t)) else 0).
    set (E := fun t => if (pr_first _ _ p <=? t) && (t <=? pr_last _ _ p) then qend d (ft_ld D (pr_trees _ _ p t)) else 0).
    assert (AE : forall t, pr_first _ _ p <= t <= pr_last _ _ p -> A t = qpos d (ft_fd D (pr_trees _ _ p t)) /\ E t = qend d (ft_ld D (pr_trees _ _ p t))).
    { intros t Ht. unfold A, E. replace ((pr_first _ _ p <=? t) && (t <=? pr_last _ _ p)) with true by lia. auto. }
    assert (TL : forall t, 0 <= t < T -> tiles d (A t) (E t) (map fst (lvs St D p t))).
    { intros t Ht. destruct (TD t Ht) as (a & b & TI). destruct ((pr_first _ _ p <=? t) && (t <=? pr_last _ _ p)) eqn:C.
      - destruct (AE t ltac:(lia)) as (-> & ->). destruct OK as (RK & _ & TR). destruct (TR t Ht) as (_ & _ & _ & DS).
        assert (NE : lvs St D p t <> []) by (destruct RK as [(H & _)|(_ & _ & H)]; [cbn in H; lia|apply H; cbn [rk_of k_first k_last]; lia]).
        destruct (descs_range d D _ _ _ _ _ NE TI DS) as (_ & _ & _ & _ & -> & -> & _). exact TI.
      - unfold A, E. rewrite C. assert (E0 : lvs St D p t = []) by (apply (outside d St D T p OK); lia). rewrite E0. reflexivity. }
    destruct (new_inv d St D T init_fn p OK A E LOC) as (b & EB & I & AB).
    destruct (run_ok d St D T bsearch init_fn p OK A E TL LOC ops b (pr_first _ _ p) _ _ None I) as (n1 & b1 & cur & ss & AD & ER & I1 & EAD).
    { rewrite AB. intros ((t, q), f) Hx. cbn [fst snd]. destruct (C1 t q f Hx) as (G1 & G2 & G3 & G4). destruct (AE t G1) as (EA1 & EE1). split; [exact G1|]. split; [|cbn; discriminate].
      unfold inr. rewrite EA1, EE1. auto. }
    { rewrite AB. exact C2. }
    { intros t q _. cbn. split; [discriminate|intros (_ & H); discriminate]. }
    destruct (finish_ok d St D T bsearch init_fn p OK A E TL LOC b1 cur ss AD I1) as (n2 & p' & ss' & EF & AD' & S1 & S2 & BU).
    exists (Nat.max n1 n2), p'. split; [|split; [exact AD'|]].
    + unfold build_rank. rewrite EB. rewrite (run_mono d bsearch St D init_fn T n1 (Nat.max n1 n2) ltac:(lia) _ _ _ ER). rewrite (finish_mono d bsearch St D init_fn T n2 (Nat.max n1 n2) _ _ ltac:(lia) EF).
      rewrite AB. reflexivity.
    + destruct AD' as (_ & P1 & P2 & _). split; [exact P1|]. split; [exact P2|]. exists ss'. split; [exact S1|]. split; [exact S2|]. intros t Ht. cbv zeta. destruct (BU t Ht) as (B1 & B2). rewrite EAD, AB in *. cbn [app] in *.
      change (lastq St D []) with (@None quad) in *. destruct (AE t Ht) as (<- & <-). rewrite init_adds_fst. split; [exact B1|exact B2].
Qed.

(** p4est_build on a valid forest: a valid forest with revision 0 and the same partition results.
    The calls of p4est_build_add return 0 if and only if they repeat the call before. *)
Theorem C42_build : forall d St D T bsearch init_fn (F : forest St D) opss, 0 < T -> forest_ok d St D T F ->
  Forall2 (fun p ops => calls_ok d St D p (adds_of St D init_fn ops)) (f_procs _ _ F) opss ->
  exists n, forall fuel, (n <= fuel)%nat -> exists F',
    build_forest d St D T bsearch fuel init_fn F opss = Some (F', map (fun ops => rets St D None (adds_of St D init_fn ops)) opss) /\
    forest_ok d St D T F' /\ f_rev _ _ F' = 0 /\ f_gfp _ _ F' = f_gfp _ _ F /\ length (f_procs _ _ F') = length (f_procs _ _ F) /\
    forall k p p' ops, nth_error (f_procs _ _ F) k = Some p -> nth_error (f_procs _ _ F') k = Some p' -> nth_error opss k = Some ops ->
      rank_built d St D init_fn p p' (adds_of St D init_fn ops).
Proof.
  intros d St D T bsearch init_fn F opss HT OK HC. pose proof OK as (NE & FP & SO & TI & GN & GQ & GP).
  assert (TD : forall t, 0 <= t < T -> Forall (fun p => tiled d D (lvs St D p t)) (f_procs _ _ F)) by (intros t Ht; apply proc_tiled; exists 0, (TREE d); auto).
  assert (RUN : exists n rs, (forall fuel, (n <= fuel)%nat -> all_some (map (fun x => build_rank d St D T bsearch fuel init_fn (fst x) (snd x)) (combine (f_procs _ _ F) opss)) = Some rs) /\
    map snd rs = map (fun ops => rets St D None (adds_of St D init_fn ops)) opss /\ Forall2 (adapted d St D T) (f_procs _ _ F) (map fst rs) /\
    forall k p p' ops, nth_error (f_procs _ _ F) k = Some p -> nth_error (map fst rs) k = Some p' -> nth_error opss k = Some ops -> rank_built d St D init_fn p p' (adds_of St D init_fn ops)).
  { clear - FP TD HC. induction HC as [|p ops ps opss H HC IH].
    - exists 0%nat, []. split; [reflexivity|]. split; [reflexivity|]. split; [constructor|]. intros [|k] p p' ops H; discriminate.
    - inversion FP as [|? ? P1 P2]; subst. destruct IH as (n1 & rs & E1 & E2 & E3 & E4); [exact P2|intros t Ht; specialize (TD t Ht); inversion TD; assumption|].
      destruct (rank_ok d St D T bsearch init_fn p ops P1) as (n2 & p' & R1 & R2 & R3); [intros t Ht; specialize (TD t Ht); inversion TD; assumption|exact H|].
      exists (Nat.max n1 n2), ((p', rets St D None (adds_of St D init_fn ops)) :: rs). split; [|split; [cbn [map snd]; congruence|split; [constructor; assumption|]]].
      + intros fuel Hf. cbn [combine map all_some fst snd]. rewrite (rank_mono d bsearch St D init_fn T n2 fuel _ _ _ ltac:(lia) R1). rewrite E1 by lia. reflexivity.
      + intros [|k] a a' o A1 A2 A3; cbn [nth_error map fst] in *; [injection A1 as <-; injection A2 as <-; injection A3 as <-; exact R3|eapply E4; eassumption]. }
  destruct RUN as (n & rs & E1 & E2 & E3 & E4). exists n. intros fuel Hf. unfold build_forest. rewrite (E1 fuel Hf).
  destruct (adapt_ok d St D T HT F (map fst rs) OK E3) as (F2 & R & OK2 & PS & _). unfold recount in R. destruct (zget (count_quadrants (map (pr_num St D) (map fst rs))) (zlen (map fst rs))) as [g|]; [|discriminate].
  injection R as <-. eexists. split; [rewrite E2; reflexivity|]. split; [exact OK2|]. split; [reflexivity|]. split; [reflexivity|]. split; [|exact E4].
  cbn [f_procs]. clear - E3. induction E3; cbn [length]; congruence.
Qed.

(** every added quadrant is a leaf of the new forest, and its data is what the callback made *)
Theorem C42_added : forall d St D init_fn (p p' : proc St D) L t q f, calls_ok d St D p L -> rank_built d St D init_fn p p' L -> In (t, q, f) L ->
  exists v, In (q, v) (lvs St D p' t) /\ exists s g, In (t, q, g) L /\ v = snd (g s t q).
Proof.
  intros d St D init_fn p p' L t q f (C1 & C2) (_ & _ & ss & _ & _ & B) H. destruct (C1 t q f H) as (R & Wq & _). destruct (B t R) as ((TI & KE & _) & RF). cbv zeta in *.
  set (U := uniq St D None (on_tree St D t L)) in *.
  assert (IU : In q (map fst U)).
  { assert (G : forall l prev, In (q, f) l -> prev = Some q \/ In q (map fst (uniq St D prev l))).
    { induction l as [|(q', g) l IH]; intros prev I; [destruct I|]. cbn [uniq]. destruct I as [I|I].
      - injection I as -> ->. destruct prev as [q'|]; [destruct (quad_dec q' q) as [->|]; [left; reflexivity|right; left; reflexivity]|right; left; reflexivity].
      - destruct (IH (Some q') I) as [EQ|I']; [injection EQ as ->|].
        + destruct prev as [x|]; [destruct (quad_dec x q) as [->|]; [left; reflexivity|right; left; reflexivity]|right; left; reflexivity].
        + destruct prev as [x|]; [destruct (quad_dec x q') as [->|]; [right; exact I'|right; right; exact I']|right; right; exact I']. }
    destruct (G (on_tree St D t L) None) as [E|E]; [|discriminate|exact E]. unfold on_tree. apply in_flat_map. exists (t, q, f). split; [exact H|]. rewrite Z.eqb_refl. left. reflexivity. }
  assert (SUB : forall l prev x, In x (uniq St D prev l) -> In x l).
  { induction l as [|(q', g) l IH]; intros prev x I; cbn [uniq] in I; [destruct I|]. destruct prev as [y|]; [destruct (quad_dec y q')|]; [right; eapply IH; exact I| |]; (destruct I as [I|I]; [left; exact I|right; eapply IH; exact I]). }
  assert (VAL : forall l s x, In x (snd (init_adds St D s t l)) -> exists s' g, In (fst x, g) l /\ snd x = snd (g s' t (fst x))).
  { induction l as [|(q', g) l IH]; intros s x I; cbn [init_adds] in I; [destruct I|]. destruct (g s t q') as (s1, v) eqn:EG. destruct (init_adds St D s1 t l) as (s2, r) eqn:EI. destruct I as [<-|I].
    - exists s, g. split; [left; reflexivity|]. cbn [fst snd]. rewrite EG. reflexivity.
    - destruct (IH s1 x) as (s' & g' & G1 & G2); [rewrite EI; exact I|]. exists s', g'. split; [right; exact G1|exact G2]. }
  rewrite <- (init_adds_fst St D t U (ss t)) in IU. pose proof (KE q IU) as IW. set (old := snd (init_adds St D (ss t) t U)) in *.
  assert (FI : exists v, find (fun e => is_equal d q (fst e)) old = Some (q, v)).
  { assert (WO : forall e, In e old -> wf d (fst e)).
    { intros e He. apply (in_map fst) in He. unfold old in He. rewrite init_adds_fst in He. apply in_map_iff in He. destruct He as ((q', g) & E & He). rewrite <- E. apply SUB in He. unfold on_tree in He. apply in_flat_map in He.
      destruct He as (((t', q''), g') & H1 & H2). destruct (t' =? t); [|destruct H2]. destruct H2 as [H2|[]]. injection H2 as -> ->. destruct (C1 _ _ _ H1) as (_ & W & _). exact W. }
    clear - IU WO Wq. induction old as [|(q', v) old IH]; [destruct IU|]. cbn [find]. destruct (is_equal d q (fst (q', v))) eqn:EQ.
    - apply is_equal_eq in EQ; [|exact Wq|apply WO; left; reflexivity]. cbn [fst] in EQ. subst q'. exists v. reflexivity.
    - destruct IU as [IU|IU]; [cbn [fst] in IU; subst q'; cbn [fst] in EQ; rewrite (proj2 (is_equal_eq d q q Wq Wq) eq_refl) in EQ; discriminate|]. apply IH; [exact IU|intros e He; apply WO; right; exact He]. }
  destruct FI as (v & FI). assert (IL : In (q, v) (lvs St D p' t)).
  { replace (lvs St D p' t) with (snd (refill d St D init_fn t old (fst (init_adds St D (ss t) t U)) (map fst (lvs St D p' t)))) by (rewrite <- RF; reflexivity).
    clear - FI IW. set (s0 := fst (init_adds St D (ss t) t U)). clearbody s0. revert s0. induction (map fst (lvs St D p' t)) as [|w ws IH]; intros s0; [destruct IW|]. cbn [refill]. destruct IW as [->|IW].
    - rewrite FI. destruct (refill d St D init_fn t old s0 ws). left. reflexivity.
    - destruct (find (fun e => is_equal d w (fst e)) old) as [(q', v')|].
      + specialize (IH IW s0). destruct (refill d St D init_fn t old s0 ws). right. exact IH.
      + destruct (init_fn s0 t w) as (s1, v'). specialize (IH IW s1). destruct (refill d St D init_fn t old s1 ws). right. exact IH. }
  exists v. split; [exact IL|]. apply find_some in FI. destruct FI as (FI & _). destruct (VAL U (ss t) (q, v) FI) as (s' & g & G1 & G2). exists s', g. split; [|exact G2].
  cbn [fst] in G1. apply SUB in G1. unfold on_tree in G1. apply in_flat_map in G1. destruct G1 as (((t', q''), g') & H1 & H2). destruct (t' =? t) eqn:ET; [|destruct H2]. destruct H2 as [H2|[]]. injection H2 as -> ->. replace t with t' by lia. exact H1.
Qed.

(** in any state of the object, the same call again returns 0 and changes nothing *)
Theorem C42_add_twice : forall d St D T bsearch fuel init_fn b b' r t q, wf d q ->
  build_add d St D T bsearch fuel init_fn b t q = Some (b', r) ->
  build_add d St D T bsearch fuel init_fn b' t q = Some (b', false).
Proof.
  intros d St D T bsearch fuel init_fn b b' r t q Wq H.
  assert (ADV : forall k b0 b1, advance d St D T bsearch fuel init_fn k b0 = Some b1 -> b_tree _ _ b1 = b_tree _ _ b0 + Z.of_nat k).
  { induction k as [|k IH]; intros b0 b1 E; cbn [advance] in E; [injection E as <-; lia|]. destruct (end_tree _ _ _ _ _ _ _ b0) as [(b2, off)|] eqn:E1; [|discriminate].
    assert (b_tree _ _ b2 = b_tree _ _ b0). { unfold end_tree in E1. destruct (_ && _); [|discriminate]. destruct (end_leaves _ _ _ _ _ _ _ _ _ _) as [(s, x)|]; [|discriminate]. injection E1 as <- _. reflexivity. }
    destruct (begin_tree St D T b2 (b_tree _ _ b2 + 1) off) as [b3|] eqn:E2; [|discriminate]. assert (b_tree _ _ b3 = b_tree _ _ b2 + 1). { unfold begin_tree in E2. destruct (_ && _); [|discriminate]. injection E2 as <-. reflexivity. }
    apply IH in E. lia. }
  unfold build_add in H. destruct (advance d St D T bsearch fuel init_fn (Z.to_nat (t - b_tree St D b)) b) as [b1|] eqn:EA; [|discriminate]. apply ADV in EA.
  destruct ((0 <=? b_tree St D b1) && (b_tree St D b1 <? T)) eqn:ET; [|discriminate].
  assert (G : b_tree _ _ b' = b_tree _ _ b1 /\ (ql (b_prev _ _ b') >=? 0) && is_equal d (b_prev _ _ b') q = true).
  { destruct ((ql (b_prev _ _ b1) >=? 0) && is_equal d (b_prev _ _ b1) q) eqn:C; [injection H as <- <-; auto|]. destruct (b_add St D b1 _ t q) as (s, v). injection H as <- <-. cbn [b_tree b_prev].
    split; [reflexivity|]. rewrite (proj2 (is_equal_eq d q q Wq Wq) eq_refl). pose proof (wf_level d q Wq). lia. }
  destruct G as (G1 & G2). unfold build_add. replace (Z.to_nat (t - b_tree St D b')) with 0%nat by lia. cbn [advance]. rewrite G1, ET, G2. reflexivity.
Qed.

(** ** C54 *)
Theorem C54_enlarge_first : forall d a q, wf d a -> wf d q -> qpos d a <= qpos d q -> qend d q <= qend d a ->
  let r := enlarge_first d a q in
  wf d r /\ (qx r, qy r, qz r) = (qx q, qy q, qz q) /\ qpos d r = qpos d q /\ qend d q <= qend d r /\ qend d r <= qend d a /\
  (forall w, wf d w -> qpos d w = qpos d q -> qend d w <= qend d a -> qend d w <= qend d r).
Proof. intros d a q Wa Wq H1 H2. destruct (enlarge_first_spec d a q Wa Wq H1 H2) as (A & B & C & E & G). cbv zeta. split; [exact A|]. split; [reflexivity|auto]. Qed.

Theorem C54_enlarge_last : forall d a q, wf d a -> wf d q -> qpos d a <= qpos d q -> qend d q <= qend d a ->
  let r := enlarge_last d a q in
  wf d r /\ qend d r = qend d q /\ qpos d r <= qpos d q /\ qpos d a <= qpos d r /\
  (forall w, wf d w -> qend d w = qend d q -> qpos d a <= qpos d w -> qpos d r <= qpos d w).
Proof. intros d a q Wa Wq H1 H2. exact (enlarge_last_spec d a q Wa Wq H1 H2). Qed.

Print Assumptions C42_build.
Print Assumptions C42_added.
Print Assumptions C42_add_twice.
Print Assumptions C54_enlarge_first.
Print Assumptions C54_enlarge_last.

(** ** Examples *)
(** a forest of two trees at level 2 on three ranks; the second tree begins on rank 1 *)
Definition z_new := new_ext D2 Z Z 2 53 x_init 1 2 true 100 [100; 200; 300].
Definition z_add (s t : Z) (q : quad) : Z * Z := (s + 1, - s).
Definition z_q := mkq (2 ^ 28 + 2 ^ 26) (2 ^ 28 + 2 ^ 26) 0 4.
Definition z_ops : list (list (bop Z Z)) :=
  [[OAdd _ _ 0 (mkq (2 ^ 28) 0 0 2); OInit _ _ z_add; OAdd _ _ 0 z_q; OAdd _ _ 0 z_q]; [OInit _ _ z_add; OAdd _ _ 1 (mkq 0 (2 ^ 28) 0 2); OAdd _ _ 1 (mkq 0 (2 ^ 28) 0 2)]; []].

Example C42_ex :
  match z_new with Some F => option_map (fun r => (x_show (fst r), snd r)) (build_forest D2 Z Z 2 (fun _ _ => None) 100 x_init F z_ops) | None => None end
  = Some ([[(0,2,112);(0,2,110);(0,2,113);(0,4,114);(0,4,115);(0,4,116);(0,4,-111);(0,3,117);(0,3,118);(0,3,119);(0,1,120);(0,2,121);(0,2,122)];
           [(0,2,211);(0,2,212);(0,1,213);(1,2,215);(1,2,216);(1,2,-214);(1,2,217);(1,2,218)];
           [(1,2,311);(1,2,312);(1,2,313);(1,1,314);(1,1,315)]],
          [0;13;21;26], [(0,0,0);(0,0,3);(1,3,0);(2,0,0)], 0, [[true;true;false];[true;false];[]]).
Proof. vm_compute. reflexivity. Qed.

Definition z_range (p : proc Z Z) (t : Z) := (qpos D2 (ft_fd Z (pr_trees _ _ p t)), qend D2 (ft_ld Z (pr_trees _ _ p t))).
Lemma z_view : option_map (fun F => map (fun p => (pr_first _ _ p, pr_last _ _ p, z_range p 0, z_range p 1)) (f_procs Z Z F)) z_new
  = Some [(0, 0, (0, 720575940379279360), (1152921504606846975, 5764607523034234879));
          (0, 1, (720575940379279360, 1152921504606846976), (0, 360287970189639680));
          (1, 1, (1152921504606846975, 5764607523034234879), (360287970189639680, 1152921504606846976))].
Proof. vm_compute. reflexivity. Qed.
Lemma z_wf : wf D2 (mkq (2 ^ 28) 0 0 2) /\ wf D2 z_q /\ wf D2 (mkq 0 (2 ^ 28) 0 2).
Proof.
  split; [|split]; (split; [cbn; lia|]); [split; [exists 1|split; [exists 0|]]|split; [exists 5|split; [exists 5|]]|split; [exists 0|split; [exists 1|]]]; vm_compute; intuition congruence.
Qed.

Example C42_ex_hyps : exists F, z_new = Some F /\ forest_ok D2 Z Z 2 F /\
  Forall2 (fun p ops => calls_ok D2 Z Z p (adds_of Z Z x_init ops)) (f_procs _ _ F) z_ops.
Proof.
  assert (I : initial_level D2 2 1 2 (zlen [100; 200; 300]) = Some (2, 16)) by (vm_compute; reflexivity).
  destruct (C34_new_ext D2 Z Z 2 53 x_init 1 2 true [100; 200; 300] 2 16 ltac:(lia) ltac:(lia) ltac:(discriminate) ltac:(unfold zlen; cbn [length]; lia) I) as (n0 & H).
  pose proof z_view as V. destruct (H n0 ltac:(lia)) as (F & E & OK & _).
  assert (EQ : z_new = Some F) by exact E.
  rewrite EQ in V. exists F. split; [exact EQ|]. split; [exact OK|]. cbn [option_map] in V. apply (f_equal (fun o => match o with Some x => x | None => [] end)) in V. cbv beta iota in V. clear - V. destruct z_wf as (W1 & W2 & W3).
  destruct (f_procs Z Z F) as [|p0 [|p1 [|p2 [|p3 ps]]]]; try discriminate V. cbn [map] in V. unfold z_range in V.
  injection V as A1 A2 A3 A4 _ _ B1 B2 _ _ B5 B6 C1 C2 _ _ C5 C6.
  assert (P1 : qpos D2 (mkq (2 ^ 28) 0 0 2) = 2 ^ 56 /\ qend D2 (mkq (2 ^ 28) 0 0 2) = 2 ^ 57) by (split; vm_compute; reflexivity).
  assert (P2 : qpos D2 z_q = 51 * 2 ^ 52 /\ qend D2 z_q = 52 * 2 ^ 52) by (split; vm_compute; reflexivity).
  constructor; [|constructor; [|constructor; [|constructor]]].
  - split.
    + intros t q f [X|[X|[X|[]]]]; injection X as <- <- _; (split; [lia|]); rewrite A3, A4; (split; [assumption|]); (vm_compute; split; discriminate).
    + repeat first [apply SSorted_nil|apply SSorted_cons|apply Forall_nil|apply Forall_cons]; right; (split; [reflexivity|]); cbn [fst snd]; first [left; reflexivity|right; vm_compute; discriminate].
  - split.
    + intros t q f [X|[X|[]]]; injection X as <- <- _; (split; [lia|]); rewrite B5, B6; (split; [assumption|]); (vm_compute; split; discriminate).
    + repeat first [apply SSorted_nil|apply SSorted_cons|apply Forall_nil|apply Forall_cons]; right; (split; [reflexivity|]); left; reflexivity.
  - split; [intros t q f []|constructor].
Qed.

Example C54_ex :
  (** the second child of the third child of the root, at its first corner and at its last corner *)
  enlarge_first D2 (mkq 0 0 0 0) (mkq 0 (2 ^ 29) 0 5) = mkq 0 (2 ^ 29) 0 1 /\
  enlarge_first D2 (mkq 0 (2 ^ 29) 0 1) (mkq (2 ^ 28) (2 ^ 29) 0 5) = mkq (2 ^ 28) (2 ^ 29) 0 2 /\
  enlarge_last D2 (mkq 0 0 0 0) (mkq (2 ^ 30 - 2 ^ 20) (2 ^ 29 - 2 ^ 20) 0 10) = mkq (2 ^ 29) 0 0 1 /\
  enlarge_last D2 (mkq (2 ^ 29 + 2 ^ 28) (2 ^ 28) 0 2) (mkq (2 ^ 30 - 2 ^ 20) (2 ^ 29 - 2 ^ 20) 0 10) = mkq (2 ^ 29 + 2 ^ 28) (2 ^ 28) 0 2.
Proof. vm_compute. auto. Qed.

