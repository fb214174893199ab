(** * Properties of p4est_partition_given: C18, C19 *)

From Coq Require Import ZArith List Bool Lia Arith ZifyBool Sorting.Sorted.
From Verif Require Import Quad Search Adapt ListLemmas Partition PartLemmas PartTrees PartRecv PartGlue PartFinal PartShip Comm CommLemmas.
Import ListNotations.
Open Scope Z_scope.

(** A distributed forest: on every rank first_local_tree and last_local_tree
    delimit exactly the trees with local leaves (or are -1 and -2), and along
    the global sequence the tree number stays or grows by one. *)
Definition dist_ok {A} (T : Z) (ranks : list (rk A)) : Prop :=
  Forall (rk_ok T) ranks /\ Sorted step (glob T ranks).

(** the local number of quadrants of all ranks *)
Definition local_counts {A} (T : Z) (ranks : list (rk A)) : list Z := map (fun r => zlen (loc T r)) ranks.

Lemma glob_total {A} T (ranks : list (rk A)) : total (local_counts T ranks) = zlen (glob T ranks).
Proof.
  unfold total, local_counts. rewrite map_length, glob_length by lia. rewrite firstn_all. reflexivity.
Qed.

Lemma glob_slices {A} T (rs : list (rk A)) cn (G : list (Z * A)) : Forall (Z.le 0) cn -> length rs = length cn ->
  (forall i r, nth_error rs i = Some r -> loc T r = sub (Z.to_nat (pre cn i)) (Z.to_nat (pre cn (S i))) G) ->
  forall k, (k <= length rs)%nat -> glob T (firstn k rs) = sub 0 (Z.to_nat (pre cn k)) G.
Proof.
  intros Hc L H. induction k as [|k IH]; intros Hk.
  - rewrite pre_0. reflexivity.
  - destruct (nth_error rs k) as [r|] eqn:E; [|apply nth_error_None in E; lia].
    rewrite (firstn_S rs k r E). unfold glob in *. rewrite flat_map_app, IH by lia. cbn [flat_map]. rewrite app_nil_r, (H k r E).
    pose proof (pre_nonneg cn Hc k). pose proof (pre_mono cn Hc k (S k) ltac:(lia)).
    apply sub_join. lia.
Qed.

(** C18: p4est_partition_given with the partition information computed by
    p4est_comm_count_quadrants and p4est_comm_global_partition.  No access is
    outside an array and no message is missing (the result is [Some]); the
    global sequence of (tree, leaf with data) stays the same; every rank gets
    the prescribed number of leaves; the result is again a distributed forest;
    the new global_first_quadrant is right; the return value is the number of
    leaves with a new owner. *)
Theorem C18_partition_given {A} (qof : A -> quad) (T : Z) (ranks : list (rk A)) (counts : list Z) :
  T <= 2 ^ 31 - 1 -> dist_ok T ranks ->
  length counts = length ranks -> Forall (Z.le 0) counts -> total counts = zlen (glob T ranks) ->
  exists ms ranks',
    global_partition qof T ranks = Some ms /\
    partition_given T (count_quadrants (local_counts T ranks)) (map g_tree ms) ranks counts
      = Some (ranks', count_quadrants counts, differ (owners 0 (local_counts T ranks)) (owners 0 counts)) /\
    glob T ranks' = glob T ranks /\
    local_counts T ranks' = counts /\
    dist_ok T ranks'.
Proof.
  intros HT (Hok & Hstep) Hlen Hcn Htot.
  destruct (global_partition_spec qof T ranks Hok) as (ms & Em & _ & _).
  pose proof (gft_ok qof T ranks ms Hok (step_sorted _ Hstep) Em) as Hgft.
  assert (Hsum : pre counts (length counts) = pre (local_counts T ranks) (length (local_counts T ranks)))
    by (rewrite <- glob_total in Htot; exact Htot).
  set (G := glob T ranks) in *.
  destruct (mapi_opt_spec (given_send A (lasts (-1) (local_counts T ranks)) (lasts (-1) counts) (map g_tree ms)) ranks 0) as (pls & EP & LP & NP).
  { intros k r Er. destruct (given_send_spec T ranks counts (map g_tree ms) Hok Hcn Hlen Hsum Hgft (0 + Z.of_nat k) r) as (pl & E & _).
    - rewrite zget_nth by lia. replace (Z.to_nat (0 + Z.of_nat k)) with k by lia. exact Er.
    - exists pl. exact E. }
  assert (Hpls : forall p r, zget ranks p = Some r -> exists pl, zget pls p = Some pl /\ plan_ok T ranks counts (map g_tree ms) p r pl).
  { intros p r Er. destruct (od_step T ranks counts Hok Hlen p r Er) as (Hp & _).
    destruct (given_send_spec T ranks counts (map g_tree ms) Hok Hcn Hlen Hsum Hgft p r Er) as (pl & E & HP).
    rewrite zget_nth in Er by lia. rewrite zget_nth by lia. destruct (nth_error pls (Z.to_nat p)) as [pl'|] eqn:En.
    2:{ apply nth_error_None in En. unfold zlen in Hp. lia. }
    pose proof (NP _ _ _ Er En) as E'. replace (0 + Z.of_nat (Z.to_nat p)) with p in E' by lia.
    exists pl'. split; [reflexivity|]. unfold local_counts in E'. congruence. }
  destruct (mapi_opt_spec (fun i r => match zget pls i with
                           | None => None
                           | Some pl => given_recv A T (lasts (-1) (local_counts T ranks)) (map g_tree ms) i r pl (fun p => sent A pls p i)
                           end) ranks 0) as (rs & ER & LR & NR).
  { intros k r Er. assert (Ez : zget ranks (0 + Z.of_nat k) = Some r).
    { rewrite zget_nth by lia. replace (Z.to_nat (0 + Z.of_nat k)) with k by lia. exact Er. }
    destruct (Hpls _ _ Ez) as (pl & Epl & _). rewrite Epl.
    destruct (given_recv_spec T ranks counts (map g_tree ms) Hok HT Hcn Hlen Hgft pls Hpls _ r pl Ez Epl) as (r' & E & _).
    exists r'. exact E. }
  assert (NEW : forall i r', nth_error rs i = Some r' -> rk_ok T r' /\
    loc T r' = sub (Z.to_nat (pre counts i)) (Z.to_nat (pre counts (S i))) G).
  { intros i r' Er'. assert (Hi : (i < length ranks)%nat) by (rewrite <- LR; apply nth_error_Some; congruence).
    destruct (nth_error ranks i) as [r|] eqn:Er; [|apply nth_error_None in Er; lia].
    assert (Ez : zget ranks (0 + Z.of_nat i) = Some r).
    { rewrite zget_nth by lia. replace (Z.to_nat (0 + Z.of_nat i)) with i by lia. exact Er. }
    pose proof (NR i r r' Er Er') as E. cbv beta in E. destruct (Hpls _ _ Ez) as (pl & Epl & _). rewrite Epl in E.
    destruct (given_recv_spec T ranks counts (map g_tree ms) Hok HT Hcn Hlen Hgft pls Hpls _ r pl Ez Epl) as (r2 & E2 & H1 & H2).
    unfold local_counts in E. rewrite E2 in E. injection E as ->.
    replace (Z.to_nat (0 + Z.of_nat i + 1)) with (S i) in H1 by lia.
    replace (Z.to_nat (0 + Z.of_nat i)) with i in H1 by lia. fold G in H1.
    set (s := sub (Z.to_nat (pre counts i)) (Z.to_nat (pre counts (S i))) G) in *.
    assert (Hs : Sorted step s) by (apply sub_Sorted; exact Hstep).
    assert (LAB : forall x, In x s -> 0 <= fst x < T).
    { intros x Hx. apply in_sub in Hx. unfold G, glob in Hx. apply in_flat_map in Hx. destruct Hx as (r3 & _ & Hx).
      apply loc_from_labels in Hx. lia. }
    split.
    - destruct H2 as [H2|(H2 & H3 & H4 & H5 & H6)]; [left; exact H2|right]. split; [exact H2|]. split; [exact H3|].
      intros t. split; [apply H6|]. intros Ht. rewrite H1. apply ofl_in. apply step_between; [exact Hs| |].
      + rewrite H1 in H4. apply ofl_in in H4. destruct H4 as (x & Hx & Ex). exists x. split; [exact Hx|lia].
      + rewrite H1 in H5. apply ofl_in in H5. destruct H5 as (x & Hx & Ex). exists x. split; [exact Hx|lia].
    - unfold loc. rewrite (loc_from_ext _ (fun t => ofl t s)) by (intros; apply H1).
      apply lsorted_split; [apply step_sorted; exact Hs|]. intros x Hx. apply LAB in Hx. lia. }
  assert (LZ : zlen G = Z.of_nat (length G)) by reflexivity.
  assert (EG : glob T rs = G).
  { pose proof (glob_slices T rs counts G Hcn ltac:(lia) (fun i r H => proj2 (NEW i r H)) (length rs) (Nat.le_refl _)) as GS.
    rewrite firstn_all in GS. rewrite GS. apply sub_all. unfold total in Htot. rewrite LR, <- Hlen. lia. }
  exists ms, rs. split; [exact Em|]. split; [|split; [exact EG|split]].
  - unfold partition_given, count_quadrants. rewrite old_lasts_running. change (0 - 1) with (-1).
    unfold given_all. rewrite EP, ER. pose proof (lasts_running counts 0) as LRn. change (0 - 1) with (-1) in LRn. rewrite LRn.
    rewrite shipped_spec; [reflexivity| |exact Hcn|unfold local_counts; rewrite map_length; lia|rewrite glob_total; symmetry; exact Htot].
    apply Forall_forall. intros x Hx. apply in_map_iff in Hx. destruct Hx as (r & <- & _). apply zlen_nonneg.
  - apply list_ext. intros k. unfold local_counts. rewrite nth_error_map. destruct (nth_error rs k) as [r'|] eqn:Ek; cbn [option_map].
    + assert (Hk : (k < length rs)%nat) by (apply nth_error_Some; congruence).
      destruct (NEW k r' Ek) as [_ ->]. destruct (nth_error counts k) as [n|] eqn:Ec; [|apply nth_error_None in Ec; lia].
      pose proof (pre_S counts k n Ec) as PS. f_equal. unfold zlen at 1. rewrite sub_length.
      pose proof (pre_nonneg counts Hcn k). pose proof (pre_nonneg counts Hcn (S k)).
      assert (pre counts (S k) <= total counts) by (apply pre_mono; [exact Hcn|lia]).
      assert (0 <= n) by (rewrite Forall_forall in Hcn; apply Hcn; eapply nth_error_In; exact Ec).
      unfold total in *. lia.
    + apply nth_error_None in Ek. symmetry. apply nth_error_None. lia.
  - split; [|rewrite EG; exact Hstep]. apply Forall_forall. intros r' Hr'. apply In_nth_error in Hr'. destruct Hr' as (i & Hi).
    apply (NEW i r' Hi).
Qed.

(** C19 for p4est_partition_given: every rank gets to the point where it waits;
    a message from rank i to rank j is posted exactly if rank j waits for one
    from rank i, at most once, and with the number of trees and of elements
    that rank j has reserved. *)
Theorem C19_partition_given {A} (qof : A -> quad) (T : Z) (ranks : list (rk A)) (counts : list Z) :
  T <= 2 ^ 31 - 1 -> dist_ok T ranks ->
  length counts = length ranks -> Forall (Z.le 0) counts -> total counts = zlen (glob T ranks) ->
  forall ms, global_partition qof T ranks = Some ms ->
  let send i r := given_send A (lasts (-1) (local_counts T ranks)) (lasts (-1) counts) (map g_tree ms) i r in
  (forall i r, zget ranks i = Some r -> exists pl, send i r = Some pl) /\
  (forall i j ri rj pi pj, zget ranks i = Some ri -> zget ranks j = Some rj -> send i ri = Some pi -> send j rj = Some pj ->
     i <> j ->
     NoDup (map fst (p_out A pi)) /\
     ((exists m, In (j, m) (p_out A pi)) <-> (p_from_begin A pj <= i <= p_from_end A pj /\ p_recv A pj i > 0)) /\
     (forall m, In (j, m) (p_out A pi) ->
        zlen (m_elems A m) = p_recv A pj i /\ num_trees_of (map g_tree ms) i = Some (m_ntrees A m))) /\
  (* no rank sends a message to itself *)
  (forall i r pl m, zget ranks i = Some r -> send i r = Some pl -> ~ In (i, m) (p_out A pl)).
Proof.
  intros HT (Hok & Hstep) Hlen Hcn Htot ms Em send.
  pose proof (gft_ok qof T ranks ms Hok (step_sorted _ Hstep) Em) as Hgft.
  assert (Hsum : pre counts (length counts) = pre (local_counts T ranks) (length (local_counts T ranks)))
    by (rewrite <- glob_total in Htot; exact Htot).
  assert (SP : forall p r, zget ranks p = Some r -> exists pl, send p r = Some pl /\ plan_ok T ranks counts (map g_tree ms) p r pl).
  { intros p r Er. apply (given_send_spec T ranks counts (map g_tree ms) Hok Hcn Hlen Hsum Hgft p r Er). }
  assert (AS : forall {B} (l : list (Z * B)) k v, NoDup (map fst l) -> In (k, v) l -> assoc k l = Some v).
  { intros B. induction l as [|(k', v') l IH]; intros k v HN HI; cbn [assoc map fst] in *; [destruct HI|]. destruct HI as [E|HI].
    - injection E as -> ->. rewrite Z.eqb_refl. reflexivity.
    - inversion HN; subst. destruct (k' =? k) eqn:Q; [|apply IH; assumption].
      exfalso. apply H1. apply in_map_iff. exists (k, v). split; [cbn; lia|exact HI]. }
  assert (AI : forall {B} (l : list (Z * B)) k v, assoc k l = Some v -> In (k, v) l).
  { intros B. induction l as [|(k', v') l IH]; intros k v E; cbn [assoc] in E; [discriminate|].
    destruct (k' =? k) eqn:Q; [left; injection E as ->; f_equal; lia|right; apply IH; exact E]. }
  split; [|split].
  - intros i r Er. destruct (SP i r Er) as (pl & E & _). exists pl. exact E.
  - intros i j ri rj pi pj Ei Ej Si Sj N.
    destruct (SP i ri Ei) as (pi' & E1 & P1). rewrite Si in E1. injection E1 as <-.
    destruct (SP j rj Ej) as (pj' & E2 & P2). rewrite Sj in E2. injection E2 as <-.
    destruct P1 as (_ & _ & _ & _ & _ & _ & _ & ND & O1 & O2).
    destruct P2 as (F1 & F2 & F3 & F4 & _).
    destruct (od_step T ranks counts Hok Hlen i ri Ei) as (Hi & _). destruct (od_step T ranks counts Hok Hlen j rj Ej) as (Hj & _).
    assert (NN : 0 <= ovl (local_counts T ranks) counts i j) by (unfold ovl, ov; lia).
    assert (EQ : (p_from_begin A pj <= i <= p_from_end A pj /\ p_recv A pj i > 0) <-> 0 < ovl (local_counts T ranks) counts i j).
    { rewrite F3. split.
      - intros [R1 R2]. replace ((p_from_begin A pj <=? i) && (i <=? p_from_end A pj)) with true in R2 by lia. unfold local_counts. lia.
      - intros Hov. assert (R : p_from_begin A pj <= i <= p_from_end A pj).
        { destruct (Z.le_gt_cases (p_from_begin A pj) i); [destruct (Z.le_gt_cases i (p_from_end A pj)); [lia|]|];
            unfold local_counts in Hov; rewrite F4 in Hov by lia; lia. }
        split; [exact R|]. replace ((p_from_begin A pj <=? i) && (i <=? p_from_end A pj)) with true by lia. unfold local_counts in Hov. lia. }
    split; [exact ND|]. split.
    + rewrite EQ. split.
      * intros (m & Hm). apply O1 in Hm. unfold local_counts. lia.
      * intros Hov. destruct (O2 j Hj ltac:(lia) Hov) as (m & a & b & Am & _). exists m. apply AI. exact Am.
    + intros m Hm. pose proof (O1 j m Hm) as (_ & _ & Hov).
      destruct (O2 j Hj ltac:(lia) Hov) as (m' & a & b & Am & Ga & Gb & M1 & M2 & _).
      rewrite (AS _ _ _ _ ND Hm) in Am. injection Am as <-. split.
      * rewrite M2. rewrite F3. destruct (proj2 EQ Hov) as [R _].
        replace ((p_from_begin A pj <=? i) && (i <=? p_from_end A pj)) with true by lia.
        rewrite <- (piece_len T ranks counts Hok Hcn Hlen i j ri Ei) by lia. unfold zlen. rewrite map_length. reflexivity.
      * unfold num_trees_of. rewrite Ga, Gb, M1. reflexivity.
  - intros i r pl m Ei Si Hm. destruct (SP i r Ei) as (pl' & E1 & P1). rewrite Si in E1. injection E1 as <-.
    destruct P1 as (_ & _ & _ & _ & _ & _ & _ & _ & O1 & _). apply O1 in Hm. lia.
Qed.

(** ** Examples: three trees with 2, 3 and 1 leaves on four ranks; the second
    rank is empty at first, the first rank is empty afterwards *)
Definition ex_ranks : list (rk nat) :=
  [ mkrk nat 0 1 (fun t => if t =? 0 then [10; 11]%nat else if t =? 1 then [20]%nat else []);
    mkrk nat (-1) (-2) (fun _ => []);
    mkrk nat 1 1 (fun t => if t =? 1 then [21; 22]%nat else []);
    mkrk nat 2 2 (fun t => if t =? 2 then [30]%nat else []) ].

Example C18_ex : dist_ok 3 ex_ranks /\
  match global_partition (fun _ => mkq 0 0 0 1) 3 ex_ranks with
  | None => None
  | Some ms =>
    match partition_given 3 (count_quadrants (local_counts 3 ex_ranks)) (map g_tree ms) ex_ranks [0; 1; 1; 4] with
    | None => None
    | Some (rs, gfq, n) => Some (map (fun r => (k_first nat r, k_last nat r, loc 3 r)) rs, gfq, n)
    end
  end = Some ([(-1, -2, []); (0, 0, [(0, 10%nat)]); (0, 0, [(0, 11%nat)]);
               (1, 2, [(1, 20%nat); (1, 21%nat); (1, 22%nat); (2, 30%nat)])], [0; 0; 1; 2; 6], 5).
Proof.
  split; [|vm_compute; reflexivity]. split.
  - assert (R : forall a b f, 0 <= a <= b -> b < 3 -> (forall t, f t <> [] <-> a <= t <= b) -> rk_ok 3 (mkrk nat a b f)).
    { intros a b f H1 H2 H3. right. cbn [k_first k_last k_trees]. auto. }
    constructor; [|constructor; [|constructor; [|constructor; [|constructor]]]].
    + apply R; [lia|lia|]. intros t. destruct (t =? 0) eqn:?, (t =? 1) eqn:?; split; intros H; try lia; try discriminate; destruct (H eq_refl).
    + left. cbn. auto.
    + apply R; [lia|lia|]. intros t. destruct (t =? 1) eqn:?; split; intros H; try lia; try discriminate; destruct (H eq_refl).
    + apply R; [lia|lia|]. intros t. destruct (t =? 2) eqn:?; split; intros H; try lia; try discriminate; destruct (H eq_refl).
  - vm_compute. repeat constructor; discriminate.
Qed.

Example C19_ex : 
  match global_partition (fun _ => mkq 0 0 0 1) 3 ex_ranks with
  | None => None
  | Some ms =>
    mapi_opt (fun i r => match given_send nat (lasts (-1) (local_counts 3 ex_ranks)) (lasts (-1) [0; 1; 1; 4]) (map g_tree ms) i r with
                         | None => None
                         | Some pl => Some (map (fun x => (fst x, m_elems nat (snd x))) (p_out nat pl))
                         end) 0 ex_ranks
  end = Some [[(1, [10%nat]); (2, [11%nat]); (3, [20%nat])]; []; [(3, [21; 22]%nat)]; []].
Proof. vm_compute. reflexivity. Qed.

Print Assumptions C18_partition_given.
Print Assumptions C19_partition_given.
