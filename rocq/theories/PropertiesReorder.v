(** * C65: p4est_search_reorder *)

From Coq Require Import ZArith List Bool Lia Arith Sorting.Sorted Sorting.Permutation ZifyBool.
From Verif Require Import Quad Spec Morton Interval QuadLemmas TreeLemmas Search SearchLemmas SearchLocal PropertiesSearch
  Reorder ReorderSpec ReorderLemmas ReorderRun.
Import ListNotations.
Open Scope Z_scope.

Definition root : quad := mkq 0 0 0 0.
Definition roots (ts : list ltree) : list (Z * quad) := map (fun t => (lt_num t, root)) ts.
Definition places (ts : list ltree) : list Z := map Z.of_nat (seq 0 (length ts)).

(** the trace of one tree: the calls for each quadrant are as specified, all are inside of each
    other as the quadrants are, and the children follow as told by the order callback *)
Definition tree_trace (d : dim) {Pt} (skip : bool) ord P PP (pts : option (list Pt)) (t : ltree) (T : list (rcall Pt)) : Prop :=
  (forall q, calls_are d Pt skip ord P PP (lt_num t) (lt_offset t) (lt_quads t) root pts q T) /\
  ReorderSpec.nested d Pt ord P (lt_num t) (lt_quads t) T /\ Forall (ev_in d Pt (lt_num t) root) T.

Lemma seq_self {A} (l : list A) : Forall2 (fun i (p : A) => nth_error l i = Some p) (seq 0 (length l)) l.
Proof.
  assert (G : forall m pre, Forall2 (fun i (p : A) => nth_error (pre ++ m) i = Some p) (seq (length pre) (length m)) m).
  { induction m as [|x m IH]; intros pre; cbn [length seq]; constructor; [rewrite nth_error_app2, Nat.sub_diag by lia; reflexivity|].
    specialize (IH (pre ++ [x])). rewrite app_length, <- app_assoc in IH. cbn [length app] in IH. rewrite Nat.add_1_r in IH. exact IH. }
  apply (G l []).
Qed.

Lemma tree_run d Pt skip ord P PP (pts : option (list Pt)) t s : sorted_leaves d (lt_quads t) -> order_ok ord ->
  exists T, reorder_recursion d (list (rcall Pt)) Pt (log_rrec skip ord P PP pts) (lt_num t) (lt_offset t) 31 s root 0 (lt_quads t) None = Some (s ++ T) /\
    tree_trace d skip ord P PP pts t T.
Proof.
  intros (F & SS) OK. pose proof (root_wf d) as W. destruct (run d Pt skip ord P PP pts (lt_num t) (lt_offset t) (lt_quads t) F SS OK 31 s root 0%nat (lt_quads t) None pts W) as (T & E & H).
  - split; [exact SS|]. split; [|auto]. intros x. pose proof (leaves_inside d (lt_quads t) F) as I. unfold inside in I. rewrite Forall_forall in I. split; [intros Ix; split; [exact Ix|apply I; exact Ix]|tauto].
  - cbn [ql root]. lia.
  - unfold rrel. destruct pts as [pl|]; [|reflexivity]. exists pl. split; [reflexivity|apply seq_self].
  - exists T. split; [exact E|exact H].
Qed.

(** The search of a forest.  [idx] is the order of the trees. *)
Definition tree_order (ord : option (list (Z * quad) -> list Z -> list Z * bool)) (ts : list ltree) : list Z :=
  match ord with None => places ts | Some K => if snd (K (roots ts) (places ts)) then fst (K (roots ts) (places ts)) else [] end.
(** the order callback keeps all trees *)
Definition keeps_trees (ord : option (list (Z * quad) -> list Z -> list Z * bool)) (ts : list ltree) : Prop :=
  forall K, ord = Some K -> snd (K (roots ts) (places ts)) = true -> Permutation (places ts) (fst (K (roots ts) (places ts))).

Lemma fold_seq {A B} (f : option B -> A -> option B) (l : list A) : forall (s : option B),
  fold_left (fun os k => match os with None => None | Some s => match nth_error l k with None => None | Some i => f (Some s) i end end) (seq 0 (length l)) s =
  fold_left (fun os i => match os with None => None | Some s => f (Some s) i end) l s.
Proof.
  assert (G : forall m pre (s : option B), fold_left (fun os k => match os with None => None | Some s => match nth_error (pre ++ m) k with None => None | Some i => f (Some s) i end end) (seq (length pre) (length m)) s =
    fold_left (fun os i => match os with None => None | Some s => f (Some s) i end) m s).
  { induction m as [|x m IH]; intros pre s; [reflexivity|]. cbn [length seq fold_left]. rewrite nth_error_app2, Nat.sub_diag by lia. cbn [nth_error].
    specialize (IH (pre ++ [x])). rewrite app_length, <- app_assoc in IH. cbn [length app] in IH. rewrite Nat.add_1_r in IH. apply IH. }
  intros s. apply (G l []).
Qed.

Theorem C65_search_forest_partial : forall d Pt skip ord P PP (pts : option (list Pt)) ts,
  Forall (fun t => sorted_leaves d (lt_quads t)) ts -> order_ok ord -> keeps_trees ord ts -> ts <> [] ->
  exists Ts, search_reorder d (log_rrec skip ord P PP pts) ts [] =
    Some (match ord with None => [] | Some _ => [Order (roots ts) (places ts)] end ++ concat Ts) /\
    Forall2 (fun i T => exists t, nth_error ts (Z.to_nat i) = Some t /\ tree_trace d skip ord P PP pts t T) (tree_order ord ts) Ts.
Proof.
  intros d Pt skip ord P PP pts ts F OK KT NE. rewrite Forall_forall in F.
  set (g := fun (os : option (list (rcall Pt))) i => match os with None => None | Some s => if i <? 0 then None else match nth_error ts (Z.to_nat i) with None => None | Some t => reorder_recursion d (list (rcall Pt)) Pt (log_rrec skip ord P PP pts) (lt_num t) (lt_offset t) 31 s root 0 (lt_quads t) None end end).
  assert (FF : forall idx s, (forall i, In i idx -> In i (places ts)) -> exists Ts, fold_left (fun os i => match os with None => None | Some s => g (Some s) i end) idx (Some s) = Some (s ++ concat Ts) /\
    Forall2 (fun i T => exists t, nth_error ts (Z.to_nat i) = Some t /\ tree_trace d skip ord P PP pts t T) idx Ts).
  { induction idx as [|i idx IH]; intros s HI; [exists []; cbn [fold_left concat]; rewrite app_nil_r; split; [reflexivity|constructor]|]. cbn [fold_left]. pose proof (HI i (or_introl eq_refl)) as Ii. unfold places in Ii. apply in_map_iff in Ii. destruct Ii as (k & <- & Ik). apply in_seq in Ik.
    unfold g at 2. replace (Z.of_nat k <? 0) with false by lia. rewrite Nat2Z.id. destruct (nth_error ts k) as [t|] eqn:Ek; [|apply nth_error_None in Ek; lia].
    destruct (tree_run d Pt skip ord P PP pts t s) as (T & E & TT); [apply F; apply (nth_error_In _ _ Ek)|exact OK|]. rewrite E. destruct (IH (s ++ T) (fun j J => HI j (or_intror J))) as (Ts & E2 & F2). exists (T :: Ts). split; [cbn [concat]; rewrite app_assoc; exact E2|]. constructor; [|exact F2]. exists t. rewrite Nat2Z.id. auto. }
  assert (EQ : search_reorder d (log_rrec skip ord P PP pts) ts [] =
    let '(s, indices, go) := match ord with None => ([], places ts, true) | Some K => ([Order (roots ts) (places ts)], fst (K (roots ts) (places ts)), snd (K (roots ts) (places ts))) end in
    if negb go then Some s else fold_left (fun os k => match os with None => None | Some s => match nth_error indices k with None => None | Some i => g (Some s) i end end) (seq 0 (length ts)) (Some s)).
  { destruct ts as [|t0 ts]; [congruence|]. unfold search_reorder. cbn [log_rrec r_pre r_post r_point r_order]. destruct ord as [K|]; reflexivity. }
  rewrite EQ. clear EQ. assert (LP : length (places ts) = length ts) by (unfold places; rewrite map_length, seq_length; reflexivity). unfold tree_order. destruct ord as [K|] eqn:EO.
  - specialize (KT K eq_refl). cbv iota beta. destruct (snd (K (roots ts) (places ts))) eqn:EG; cbn [negb].
    + specialize (KT eq_refl). set (idx := fst (K (roots ts) (places ts))) in *. replace (length ts) with (length idx) by (rewrite <- (Permutation_length KT); exact LP). rewrite fold_seq. destruct (FF idx [Order (roots ts) (places ts)]) as (Ts & E & F2); [|exists Ts; split; [exact E|exact F2]].
      intros i I. apply (Permutation_in _ (Permutation_sym KT)). exact I.
    + exists []. split; [reflexivity|constructor].
  - cbn [negb]. rewrite <- LP. rewrite fold_seq. destruct (FF (places ts) []) as (Ts & E & F2); [auto|]. exists Ts. split; [exact E|exact F2].
Qed.
Print Assumptions C65_search_forest_partial.

(** If all callbacks go on and the order is a permutation, each leaf is met once. *)
Theorem C65_all_leaves : forall d skip ord ts t q k,
  Forall (fun t => sorted_leaves d (lt_quads t)) ts -> NoDup (map lt_num ts) ->
  (forall K qs idx, ord = Some K -> snd (K qs idx) = true /\ Permutation idx (fst (K qs idx))) ->
  In t ts -> nth_error (lt_quads t) k = Some q ->
  exists T, search_reorder d (log_rrec (Pt := unit) skip ord (fun _ _ _ => true) (fun _ _ _ _ => true) None) ts [] = Some T /\
    let n := lt_offset t + Z.of_nat k in
    filter (fun e => match e with Pre t' r _ | Point t' r _ _ | Post t' r _ => (t' =? lt_num t) && if quad_dec q r then true else false | Order _ _ => false end) T =
    [Pre (lt_num t) q n; Post (lt_num t) q n].
Proof.
  intros d skip ord ts t q k F ND HO It Ek. assert (OK : order_ok ord). { intros K qs idx EO N. destruct (HO K qs idx EO) as (_ & PM). split; [apply (Permutation_NoDup PM N)|]. intros x I. apply (Permutation_in _ (Permutation_sym PM)). exact I. }
  assert (KT : keeps_trees ord ts). { intros K EO _. apply (HO K (roots ts) (places ts) EO). }
  destruct (C65_search_forest_partial d unit skip ord (fun _ _ _ => true) (fun _ _ _ _ => true) None ts F OK KT) as (Ts & E & F2); [intros ->; destruct It|].
  eexists. split; [exact E|]. cbv zeta. set (fl := fun e => _).
  rewrite Forall_forall in F. destruct (F t It) as (FW & SS).
  assert (NT : forall t' T, Forall (ev_in d unit t' root) T -> lt_num t <> t' -> filter fl T = []).
  { intros t' T HE NE. apply filter_none. intros e I. rewrite Forall_forall in HE. specialize (HE e I). unfold fl. destruct e; cbn [ev_in] in HE; try reflexivity; destruct HE as (-> & _); replace (t' =? lt_num t) with false by lia; reflexivity. }
  assert (SAME : forall T, Forall (ev_in d unit (lt_num t) root) T -> filter fl T = filter (atq unit q) T).
  { intros T HE. apply filter_ext_in. intros e I. rewrite Forall_forall in HE. specialize (HE e I). unfold fl. destruct e; cbn [ev_in atq] in *; try reflexivity; destruct HE as (-> & _); rewrite Z.eqb_refl; reflexivity. }
  assert (Iq : In q (lt_quads t)) by (apply (nth_error_In _ _ Ek)). assert (Wq : wf d q) by (rewrite Forall_forall in FW; auto).
  assert (ROOT : forall r, wf d r -> within d root r). { intros r Wr. pose proof (leaves_inside d [r] ltac:(constructor; [exact Wr|constructor])) as I. inversion I as [|? ? (_ & K) _]; subst. exact K. }
  assert (CALLED : called d unit skip ord (fun _ _ _ => true) (fun _ _ _ _ => true) (lt_num t) (lt_offset t) (lt_quads t) root None q).
  { split; [split; [exact Wq|]; split; [exists q; split; [exact Iq|apply within_refl]|auto]|]. split; [apply ROOT; exact Wq|]. split; [|discriminate].
    intros m Sm Bm Mq Nm. split; [reflexivity|]. intros _ K EO. destruct (HO K (siblings d (lt_num t) m) (kids d (lt_quads t) m) EO) as (H1 & H2). split; [exact H1|].
    assert (Sq : snode d skip (lt_quads t) q) by (split; [exact Wq|]; split; [exists q; split; [exact Iq|apply within_refl]|auto]).
    destruct (sn_child d (lt_quads t) skip m (proj1 Sm) q Sq Mq (fun E => Nm (eq_sym E))) as (_ & i & Hi & Ai). exists i. split; [|exact Ai]. apply (Permutation_in _ H2). apply kids_has. split; [exact Hi|]. exists q. auto. }
  assert (ONE : forall T, tree_trace d skip ord (fun _ _ _ => true) (fun _ _ _ _ => true) None t T -> filter fl T = [Pre (lt_num t) q (lt_offset t + Z.of_nat k); Post (lt_num t) q (lt_offset t + Z.of_nat k)]).
  { intros T (HC & _ & HE). rewrite (SAME T HE). destruct (proj1 (HC q) CALLED) as (l & El & ->). rewrite El. unfold calls. cbn [map app]. rewrite (num_at d (lt_offset t) (lt_quads t) FW SS k q Ek). reflexivity. }
  rewrite filter_app. replace (filter fl (match ord with None => [] | Some _ => [Order (roots ts) (places ts)] end)) with (@nil (rcall unit)) by (destruct ord; reflexivity). cbn [app].
  (* the place of the tree *)
  destruct (In_nth_error ts t It) as (j & Ej).
  assert (TO : Permutation (places ts) (tree_order ord ts)). { unfold tree_order. destruct ord as [K|] eqn:EO; [|apply Permutation_refl]. destruct (HO K (roots ts) (places ts) eq_refl) as (-> & H2). exact H2. }
  assert (NDT : NoDup (tree_order ord ts)). { apply (Permutation_NoDup TO). unfold places. apply FinFun.Injective_map_NoDup; [intros x y; lia|apply seq_NoDup]. }
  assert (INJ : In (Z.of_nat j) (tree_order ord ts)). { apply (Permutation_in _ TO). unfold places. apply in_map. apply in_seq. assert (nth_error ts j <> None) by congruence. apply nth_error_Some in H. lia. }
  assert (PL : forall i, In i (tree_order ord ts) -> 0 <= i). { intros i I. apply (Permutation_in _ (Permutation_sym TO)) in I. unfold places in I. apply in_map_iff in I. destruct I as (m & <- & _). lia. }
  assert (OTHER : forall i t', 0 <= i -> nth_error ts (Z.to_nat i) = Some t' -> i <> Z.of_nat j -> lt_num t <> lt_num t').
  { intros i t' H0 Ei N EQN. apply N. assert (Z.to_nat i = j); [|lia]. apply (proj1 (NoDup_nth_error (map lt_num ts)) ND); [rewrite map_length; apply nth_error_Some; congruence|]. rewrite !nth_error_map, Ei, Ej. cbn [option_map]. congruence. }
  clear E TO. revert NDT INJ PL F2. generalize (tree_order ord ts) as idx. revert Ts. intros Ts idx. revert Ts. induction idx as [|i idx IH]; intros Ts NDT INJ PL F2; [destruct INJ|].
  inversion F2 as [|? T ? Ts' (t' & Ei & HT) F2']; subst. inversion NDT as [|? ? NI ND']; subst. cbn [concat]. rewrite filter_app. destruct (Z.eq_dec i (Z.of_nat j)) as [->|N].
  - rewrite Nat2Z.id in Ei. assert (t' = t) by congruence. subst t'. rewrite (ONE T HT). replace (filter fl (concat Ts')) with (@nil (rcall unit)); [reflexivity|]. symmetry. clear IH. assert (NJ : forall i, In i idx -> i <> Z.of_nat j) by (intros i I ->; contradiction).
    assert (PL' : forall i, In i idx -> 0 <= i) by (intros i I; apply PL; right; exact I). clear - F2' NJ PL' OTHER NT. induction F2' as [|i T l m (t' & Ei & HT) F IH]; [reflexivity|]. cbn [concat]. rewrite filter_app, IH by (intros; (apply NJ || apply PL'); right; assumption). rewrite app_nil_r. apply (NT (lt_num t')); [apply HT|]. apply (OTHER i); auto; [apply PL'|apply NJ]; left; reflexivity.
  - rewrite (NT (lt_num t') T); [|apply HT|apply (OTHER i); auto; apply PL; left; reflexivity]. cbn [app]. apply IH; auto; [destruct INJ; [contradiction|assumption]|]. intros m I. apply PL. right. exact I.
Qed.
Print Assumptions C65_all_leaves.

(** *** a case: two trees, the children in reverse order and the first of them left out *)
Definition ex_ord : list (Z * quad) -> list Z -> list Z * bool := fun qs idx => (rev (if Nat.eqb (length qs) 2 then idx else tl idx), true).
Definition ex_L : list quad := let r := mkq 0 0 0 0 in let c := child D2 r in [child D2 (c 0) 0; child D2 (c 0) 3; c 1; c 3].
Definition ex_ts : list ltree := [mklt 5 0 ex_L; mklt 6 4 [mkq 0 0 0 0]].
Lemma ex_leaves : Forall (fun t => sorted_leaves D2 (lt_quads t)) ex_ts.
Proof.
  assert (W : forall l, forallb (is_valid D2) l = true -> Forall (wf D2) l). { intros l H. apply Forall_forall. intros x I. rewrite forallb_forall in H. apply is_valid_wf. apply H. exact I. }
  constructor; [|constructor; [|constructor]]; (split; [apply W; vm_compute; reflexivity|]); cbn [lt_quads]; unfold ex_L; repeat constructor; unfold before; vm_compute; intros K; discriminate K.
Qed.
Lemma ex_order : order_ok (Some ex_ord).
Proof.
  intros K qs idx E ND. injection E as <-. unfold ex_ord. cbn [fst]. destruct (Nat.eqb (length qs) 2).
  - split; [apply NoDup_rev; exact ND|]. intros x I. apply in_rev. exact I.
  - split; [apply NoDup_rev; destruct idx; cbn [tl]; [constructor|inversion ND; assumption]|]. intros x I. apply in_rev in I. destruct idx; [destruct I|right; exact I].
Qed.
Example C65_ex : let c := child D2 root in
  Forall (fun t => sorted_leaves D2 (lt_quads t)) ex_ts /\ order_ok (Some ex_ord) /\ keeps_trees (Some ex_ord) ex_ts /\ NoDup (map lt_num ex_ts) /\
  search_reorder D2 (log_rrec false (Some ex_ord) (fun _ _ _ => true) (fun _ q _ p => ql q <? p) (Some [1; 2])) ex_ts [] = Some
   [Order [(5, root); (6, root)] [0; 1];
    Pre 6 root 4; Point 6 root 4 1; Point 6 root 4 2; Post 6 root 4;
    Pre 5 root (-1); Point 5 root (-1) 1; Point 5 root (-1) 2; Order [(5, c 0); (5, c 1); (5, c 2); (5, c 3)] [0; 1; 3];
    Pre 5 (c 3) 3; Point 5 (c 3) 3 1; Point 5 (c 3) 3 2; Post 5 (c 3) 3;
    Pre 5 (c 1) 2; Point 5 (c 1) 2 1; Point 5 (c 1) 2 2; Post 5 (c 1) 2;
    Post 5 root (-1)].
Proof.
  cbv zeta. split; [exact ex_leaves|]. split; [exact ex_order|]. split; [|split; [|vm_compute; reflexivity]].
  - intros K E _. injection E as <-. cbn. apply perm_swap.
  - repeat constructor; cbn; intuition discriminate.
Qed.

(** *** the order callback leaves out a tree: the code reads beyond the end of the indices *)
Theorem C65_subset_refuted : exists d ord ts,
  Forall (fun t => sorted_leaves d (lt_quads t)) ts /\ order_ok ord /\
  search_reorder d (log_rrec (Pt := unit) false ord (fun _ _ _ => true) (fun _ _ _ _ => true) None) ts [] = None.
Proof.
  exists D2, (Some (fun _ idx => (tl idx, true))), ex_ts. split; [exact ex_leaves|]. split; [|vm_compute; reflexivity].
  intros K qs idx E ND. injection E as <-. cbn [fst]. split; [destruct idx; [constructor|inversion ND; assumption]|]. intros x I. destruct idx; [destruct I|right; exact I].
Qed.
Print Assumptions C65_subset_refuted.
