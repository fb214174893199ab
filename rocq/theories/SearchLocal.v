(** * Specification vocabulary and lemmas for p4est_search_local *)

From Coq Require Import ZArith List Bool Lia Arith Sorting.Sorted ZifyBool.
From Verif Require Import Quad Spec Morton Interval QuadLemmas CompareLemmas DescLemmas SuccLemmas
  Tree TreeLemmas Search SearchLemmas.
Import ListNotations.
Open Scope Z_scope.

(** region of b contains region of q *)
Definition within (d : dim) (b q : quad) : Prop := qpos d b <= qpos d q /\ qend d q <= qend d b.
Definition withinb (d : dim) (b q : quad) : bool := (qpos d b <=? qpos d q) && (qend d q <=? qend d b).
Lemma withinb_iff d b q : withinb d b q = true <-> within d b q.
Proof. unfold withinb, within. lia. Qed.

(** a quadrant at least two of whose children contain leaves of the list *)
Definition branch (d : dim) (L : list quad) (b : quad) : Prop :=
  wf d b /\ ql b < 29 /\
  exists i j x y, 0 <= i < children d /\ 0 <= j < children d /\ i <> j /\
    In x L /\ In y L /\ within d (child d b i) x /\ within d (child d b j) y.

(** A search node is a quadrant with, for a leaf, its index in the tree. *)
Definition node := (quad * option nat)%type.

(** ** The search protocol as a rewriting of pending nodes *)
Section Run.
  Variable d : dim.
  Variables (St Pt : Type).
  Variable rec : lrec St Pt.
  Variables (tree off : Z).

  Definition node_num (n : node) : Z :=
    match snd n with None => -1 | Some i => off + Z.of_nat i end.

  (** ask the point callback for each point, keep the accepted ones *)
  Fixpoint ask (s : St) (n : node) (ps : list Pt) : St * list Pt :=
    match ps with
    | [] => (s, [])
    | p :: ps' => let (s1, m) := point_fn rec s tree (fst n) (node_num n) p in
                  let (s2, r) := ask s1 n ps' in (s2, if m then p :: r else r)
    end.

  Definition ask_quadrant (s : St) (n : node) : St * bool :=
    match quadrant_fn rec with None => (s, true) | Some f => f s tree (fst n) (node_num n) end.

  (** visit a node with its active points; the second result is [None] if the
      search below the node is abandoned, else the points to go on with *)
  Definition visit (s : St) (n : node) (ps : option (list Pt)) : St * option (option (list Pt)) :=
    let (s1, go) := ask_quadrant s n in
    if negb go then (s1, None)
    else match ps with
         | None => (s1, Some None)
         | Some l =>
           let (s2, r) := ask s1 n l in
           let (s3, keep) := if call_post rec then ask_quadrant s2 n else (s2, true) in
           (s3, if keep then Some (Some r) else None)
         end.

  Definition work := list (node * option (list Pt)).

  (** the decision at b concerns exactly the pending nodes inside b *)
  Definition update1 (b : quad) (r : option (option (list Pt))) (e : node * option (list Pt)) : work :=
    if withinb d b (fst (fst e)) then match r with None => [] | Some ps' => [(fst e, ps')] end
    else [e].
  Definition update (b : quad) (r : option (option (list Pt))) (w : work) : work :=
    flat_map (update1 b r) w.

  (** nodes without active points are not visited *)
  Fixpoint runf (fuel : nat) (s : St) (w : work) : St :=
    match fuel, w with
    | S fuel', (n, ps) :: w' =>
      match ps with
      | Some [] => runf fuel' s w'
      | _ => let (s', r) := visit s n ps in runf fuel' s' (update (fst n) r w')
      end
    | _, _ => s
    end.
  Definition run (s : St) (w : work) : St := runf (length w) s w.

  Lemma update_length b r w : (length (update b r w) <= length w)%nat.
  Proof.
    induction w as [|e w IH]; [cbn; lia|]. unfold update in *. cbn [flat_map length]. rewrite app_length.
    assert (length (update1 b r e) <= 1)%nat; [|lia].
    unfold update1. destruct (withinb d b (fst (fst e))); [destruct r|]; cbn [length]; lia.
  Qed.

  Lemma update_in b r w n ps : In (n, ps) (update b r w) -> exists ps', In (n, ps') w.
  Proof.
    unfold update. rewrite in_flat_map. intros ((n', ps') & I & H).
    unfold update1 in H. cbn [fst] in H. destruct (withinb d b (fst n')); [destruct r|]; cbn in H; try tauto;
      destruct H as [H|[]]; inversion H; subst; eauto.
  Qed.

  Lemma update_app b r w w' : update b r (w ++ w') = update b r w ++ update b r w'.
  Proof. unfold update. apply flat_map_app. Qed.

  Lemma update_none b r w : (forall n ps, In (n, ps) w -> withinb d b (fst n) = false) -> update b r w = w.
  Proof.
    induction w as [|(n, ps) w IH]; intros H; [reflexivity|]. unfold update in *. cbn [flat_map].
    unfold update1 at 1. cbn [fst]. rewrite (H n ps) by (left; auto). cbn. f_equal. apply IH. intros; eapply H; right; eauto.
  Qed.

  Lemma runf_fuel : forall n m s w, (length w <= n)%nat -> (length w <= m)%nat -> runf n s w = runf m s w.
  Proof.
    induction n as [|n IH]; intros m s w Hn Hm.
    - destruct w; cbn in Hn; [|lia]. destruct m; reflexivity.
    - destruct w as [|(x, ps) w]; [destruct m; reflexivity|].
      destruct m as [|m]; cbn in Hm; [lia|]. cbn in Hn. cbn [runf].
      destruct ps as [[|p l]|].
      + apply IH; lia.
      + destruct (visit s x (Some (p :: l))) as (s', r). pose proof (update_length (fst x) r w). apply IH; lia.
      + destruct (visit s x None) as (s', r). pose proof (update_length (fst x) r w). apply IH; lia.
  Qed.

  Lemma run_cons s n ps w : run s ((n, ps) :: w) =
    match ps with Some [] => run s w
    | _ => let (s', r) := visit s n ps in run s' (update (fst n) r w) end.
  Proof.
    unfold run. cbn [length runf]. destruct ps as [[|p l]|]; [reflexivity| |];
    (match goal with |- context [visit ?a ?b ?c] => destruct (visit a b c) as (s', r) end;
     apply runf_fuel; [apply update_length|apply Nat.le_refl]).
  Qed.

  Lemma run_app : forall k w1 w2 s, (length w1 <= k)%nat ->
    (forall n1 p1 n2 p2, In (n1, p1) w1 -> In (n2, p2) w2 -> withinb d (fst n1) (fst n2) = false) ->
    run s (w1 ++ w2) = run (run s w1) w2.
  Proof.
    induction k as [|k IH]; intros w1 w2 s Hk H.
    - destruct w1; cbn in Hk; [reflexivity|lia].
    - destruct w1 as [|(n, ps) w1]; [reflexivity|]. cbn in Hk. cbn [app].
      rewrite !run_cons.
      assert (T : forall s' r, run s' (update (fst n) r (w1 ++ w2)) = run (run s' (update (fst n) r w1)) w2).
      { intros s' r. rewrite update_app, (update_none _ _ w2).
        - apply IH; [eapply Nat.le_trans; [apply update_length|exact (le_S_n _ _ Hk)]|].
          intros n1 p1 n2 p2 I1 I2. apply update_in in I1. destruct I1 as (p' & I1).
          eapply H; [right; eauto|eauto].
        - intros n2 p2 I2. eapply H; [left; reflexivity|eauto]. }
      destruct ps as [[|p l]|].
      + apply IH; [exact (le_S_n _ _ Hk)|]. intros; eapply H; [right; eauto|eauto].
      + destruct (visit s n (Some (p :: l))) as (s', r). apply T.
      + destruct (visit s n None) as (s', r). apply T.
  Qed.

  Lemma run_empty s w : (forall n ps, In (n, ps) w -> ps = Some []) -> run s w = s.
  Proof.
    induction w as [|(n, ps) w IH]; intros H; [reflexivity|]. rewrite run_cons.
    rewrite (H n ps) by (left; auto). apply IH. intros; eapply H; right; eauto.
  Qed.

  Lemma update_all b ps' N ps : (forall n, In n N -> withinb d b (fst n) = true) ->
    update b (Some ps') (map (fun n => (n, ps)) N) = map (fun n => (n, ps')) N.
  Proof.
    induction N as [|n N IH]; intros H; [reflexivity|]. unfold update in *. cbn [map flat_map].
    unfold update1 at 1. cbn [fst]. rewrite (H n) by (left; auto). cbn. f_equal. apply IH. intros; apply H; right; auto.
  Qed.
  Lemma update_drop b N (ps : option (list Pt)) : (forall n, In n N -> withinb d b (fst n) = true) ->
    update b None (map (fun n => (n, ps)) N) = [].
  Proof.
    induction N as [|n N IH]; intros H; [reflexivity|]. unfold update in *. cbn [map flat_map].
    unfold update1 at 1. cbn [fst]. rewrite (H n) by (left; auto). cbn. apply IH. intros; apply H; right; auto.
  Qed.
End Run.

(** ** Geometry of a linear list inside a quadrant *)
Section Geo.
  Variable d : dim.

  Definition linear (L : list quad) : Prop := StronglySorted (before d) L.
  Definition inside (b : quad) (L : list quad) : Prop := Forall (fun x => wf d x /\ within d b x) L.

  Lemma within_level b x : wf d b -> wf d x -> within d b x -> ql b <= ql x.
  Proof. intros Wb Wx (A & B). apply (contains_unique d b x); auto. Qed.

  Lemma within_eq b x : wf d b -> wf d x -> within d b x -> ql b = ql x -> b = x.
  Proof.
    intros Wb Wx (A & B) E. apply (quad_eq d); auto. unfold qend, qsize in *. rewrite E in *. lia.
  Qed.

  Lemma within_trans a b c : within d a b -> within d b c -> within d a c.
  Proof. unfold within. lia. Qed.

  Lemma anc_child b x : wf d b -> wf d x -> within d b x -> ql b < ql x ->
    0 <= ancestor_id d x (ql b + 1) < children d /\ within d (child d b (ancestor_id d x (ql b + 1))) x.
  Proof.
    intros Wb Wx (A & B) L. pose proof (wf_level d x Wx) as Lx. pose proof (wf_level d b Wb) as Lb.
    pose proof (ancestor_id_range d x (ql b + 1) Wx ltac:(lia)) as R. split; [auto|].
    destruct (contains_unique d b x Wb Wx A B) as (_ & E).
    pose proof (pidx_step d x (ql b + 1) Wx ltac:(lia)) as P.
    replace (ql b + 1 - 1) with (ql b) in P by lia.
    rewrite <- (pidx_ancestor d x (ql b)), <- E in P by (auto; lia).
    pose proof (child_wf d b _ Wb ltac:(lia) R) as (Wc & Lc & Ic).
    rewrite <- P in Ic. rewrite <- pidx_ancestor in Ic by (auto; lia).
    pose proof (ancestor_wf d x (ql b + 1) Wx ltac:(lia)) as (Wa & La & _).
    assert (EQ : child d b (ancestor_id d x (ql b + 1)) = ancestor d x (ql b + 1)).
    { apply (quad_eq d); auto. rewrite !(wf_qpos d) by auto. rewrite Ic, Lc, La. reflexivity. }
    rewrite EQ. apply ancestor_contains; auto. lia.
  Qed.

  Lemma child_order b i j : wf d b -> ql b < 29 -> 0 <= i < j -> j < children d ->
    qend d (child d b i) <= qpos d (child d b j).
  Proof.
    intros Wb Lb Hi Hj. pose proof (child_wf d b i Wb Lb ltac:(lia)) as (Wi & Li & _).
    unfold qend. rewrite !child_pos by (auto; lia). rewrite qsize_psize, Li.
    pose proof (psize_pos d (ql b + 1) ltac:(lia)). nia.
  Qed.

  Lemma child_within b i : wf d b -> ql b < 29 -> 0 <= i < children d -> within d b (child d b i).
  Proof.
    intros Wb Lb Hi. pose proof (child_wf d b i Wb Lb Hi) as (Wi & Li & _).
    unfold within, qend. rewrite child_pos by auto. rewrite !qsize_psize, Li.
    pose proof (psize_pos d (ql b + 1) ltac:(lia)). rewrite (psize_child d (ql b)) by lia. nia.
  Qed.

  Lemma size_pos x : wf d x -> qpos d x < qend d x.
  Proof. intros. pose proof (qsize_pos d x H). unfold qend. lia. Qed.

  Lemma child_unique b x i j : wf d b -> ql b < 29 -> wf d x -> 0 <= i < children d -> 0 <= j < children d ->
    within d (child d b i) x -> within d (child d b j) x -> i = j.
  Proof.
    intros Wb Lb Wx Hi Hj (A & B) (A' & B'). pose proof (size_pos x Wx).
    destruct (Z.lt_trichotomy i j) as [?|[?|?]]; [|auto|].
    - pose proof (child_order b i j Wb Lb ltac:(lia) ltac:(lia)). lia.
    - pose proof (child_order b j i Wb Lb ltac:(lia) ltac:(lia)). lia.
  Qed.

  Lemma in_child_id b x i : wf d b -> ql b < 29 -> wf d x -> 0 <= i < children d ->
    within d (child d b i) x -> ancestor_id d x (ql b + 1) = i.
  Proof.
    intros Wb Lb Wx Hi H.
    pose proof (child_wf d b i Wb Lb Hi) as (Wi & Li & _).
    pose proof (within_level _ _ Wi Wx H).
    destruct (anc_child b x Wb Wx (within_trans _ _ _ (child_within b i Wb Lb Hi) H) ltac:(lia)) as (R & H').
    symmetry. eapply (child_unique b x); eauto.
  Qed.

  Lemma nested x y : wf d x -> wf d y -> qpos d x < qend d y -> qpos d y < qend d x -> within d x y \/ within d y x.
  Proof.
    intros Wx Wy A B. destruct (Z_le_gt_dec (ql x) (ql y)) as [L|L].
    - destruct (dyadic d x y Wx Wy L) as [?|[?|?]]; [left; auto|lia|lia].
    - destruct (dyadic d y x Wy Wx ltac:(lia)) as [?|[?|?]]; [right; auto|lia|lia].
  Qed.

  (** two disjoint quadrants inside b: b is strictly coarser *)
  Lemma two_level b x y : wf d b -> wf d x -> wf d y -> before d x y \/ before d y x ->
    within d b x -> within d b y -> ql b < ql x.
  Proof.
    intros Wb Wx Wy Hxy A B. pose proof (within_level b x Wb Wx A).
    destruct (Z.eq_dec (ql b) (ql x)) as [E|E]; [|lia].
    pose proof (within_eq b x Wb Wx A E). subst x. pose proof (size_pos y Wy). unfold before, within in *. lia.
  Qed.

  Definition cty (b : quad) (x : quad) : nat := Z.to_nat (ancestor_id d x (ql b + 1)).
  Definition lastof (L : list quad) (q : quad) : quad := last L q.

  (** the search nodes of a list, in the order of the recursion *)
  Fixpoint nodes (fuel : nat) (base : nat) (L : list quad) : list node :=
    match fuel with
    | O => []
    | S f =>
      match L with
      | [] => []
      | [q] => [(q, Some base)]
      | q :: _ =>
        let b := nearest_common_ancestor d q (last L q) in
        (b, None) :: flat_map (fun i =>
          nodes f (base + countb (fun x => Nat.ltb (cty b x) i) L) (filter (fun x => Nat.eqb (cty b x) i) L))
          (seq 0 (childrenn d))
      end
    end.

  Lemma nodes_eq f base q q2 L : let b := nearest_common_ancestor d q (last (q :: q2 :: L) q) in
    nodes (S f) base (q :: q2 :: L) =
        (b, None) :: flat_map (fun i =>
          nodes f (base + countb (fun x => Nat.ltb (cty b x) i) (q :: q2 :: L))
             (filter (fun x => Nat.eqb (cty b x) i) (q :: q2 :: L)))
          (seq 0 (childrenn d)).
  Proof. reflexivity. Qed.

  Lemma last_in {A} (l : list A) a : l <> [] -> In (last l a) l.
  Proof.
    induction l as [|x l IH]; [congruence|]. intros _. destruct l; [left; reflexivity|].
    right. apply IH. discriminate.
  Qed.

  Lemma SS_last {A} (R : A -> A -> Prop) x y l a : StronglySorted R (x :: y :: l) -> R x (last (x :: y :: l) a).
  Proof.
    intros S. inversion S as [|? ? _ F]; subst. rewrite Forall_forall in F. apply F.
    change (last (x :: y :: l) a) with (last (y :: l) a). apply last_in. discriminate.
  Qed.

  Lemma SS_last_all {A} (R : A -> A -> Prop) l : forall a x, StronglySorted R l -> In x l -> x = last l a \/ R x (last l a).
  Proof.
    induction l as [|y l IH]; intros a x S I; [destruct I|].
    inversion S as [|? ? S' F]; subst. destruct l as [|z l].
    - destruct I as [->|[]]. left. reflexivity.
    - change (last (y :: z :: l) a) with (last (z :: l) a). destruct I as [->|I].
      + right. rewrite Forall_forall in F. apply F. apply last_in. discriminate.
      + apply IH; auto.
  Qed.

  Lemma SS_pair {A} (R : A -> A -> Prop) l : StronglySorted R l -> forall i j x y, (i < j)%nat ->
    nth_error l i = Some x -> nth_error l j = Some y -> R x y.
  Proof.
    induction 1 as [|a l S IH F]; intros i j x y H X Y; [destruct i; discriminate|].
    destruct j as [|j]; [lia|]. cbn in Y. destruct i as [|i].
    - inversion X; subst. rewrite Forall_forall in F. apply F. eapply nth_error_In; eauto.
    - cbn in X. apply (IH i j); auto; lia.
  Qed.

  (** what the recursion knows about a list with two or more elements *)
  Section Two.
    Variables (b0 q q2 : quad) (L0 : list quad).
    Let L := q :: q2 :: L0.
    Let lq := last L q.
    Let b := nearest_common_ancestor d q lq.
    Hypothesis Wb0 : wf d b0.
    Hypothesis Lin : linear L.
    Hypothesis Ins : inside b0 L.
    Set Default Proof Using "All".

    Lemma Lwf x : In x L -> wf d x /\ within d b0 x.
    Proof. intros. eapply Forall_forall in Ins; eauto. Qed.
    Lemma q_in : In q L. Proof. left; reflexivity. Qed.
    Lemma lq_in : In lq L. Proof. apply last_in. discriminate. Qed.
    Lemma q_lq : before d q lq. Proof. apply (SS_last (before d)). exact Lin. Qed.
    Lemma b_spec : wf d b /\ within d b q /\ within d b lq /\
      forall r, wf d r -> within d r q -> within d r lq -> within d r b.
    Proof.
      destruct (Lwf q q_in) as (Wq & _). destruct (Lwf lq lq_in) as (Wl & _).
      destruct (nca_spec d q lq Wq Wl) as (W & A & B & C). fold b in W, A, B, C.
      split; [auto|]. split; [auto|]. split; [auto|]. intros r Wr (P1 & P2) (P3 & P4). apply C; auto.
    Qed.
    Lemma b0_b : within d b0 b.
    Proof. apply b_spec; auto; apply Lwf; [apply q_in|apply lq_in]. Qed.
    Lemma b_all r x : wf d r -> within d r q -> within d r lq -> In x L -> within d r x.
    Proof.
      intros Wr (A & B) (A' & B') I. split.
      - destruct I as [->|I]; [auto|]. inversion Lin as [|? ? _ F]; subst.
        rewrite Forall_forall in F. specialize (F x I). unfold before in F.
        pose proof (size_pos q (proj1 (Lwf q q_in))). lia.
      - destruct (SS_last_all _ _ q x Lin I) as [->|H]; [auto|]. fold L lq in H. unfold before in H.
        pose proof (size_pos lq (proj1 (Lwf lq lq_in))). lia.
    Qed.
    Lemma b_in x : In x L -> within d b x.
    Proof. destruct b_spec as (W & A & B & _). apply b_all; auto. Qed.
    Lemma other x : In x L -> exists y, In y L /\ (before d x y \/ before d y x).
    Proof.
      intros I. destruct (SS_last_all _ _ q x Lin I) as [E|H].
      - exists q. split; [apply q_in|]. right. rewrite E. apply q_lq.
      - exists lq. split; [apply lq_in|auto].
    Qed.
    Lemma lev r x : wf d r -> within d r q -> within d r lq -> In x L -> ql r < ql x.
    Proof.
      intros Wr A B I. destruct (other x I) as (y & Iy & H).
      apply (two_level r x y); auto; try (apply Lwf; auto; fail); apply b_all; auto.
    Qed.
    Lemma b_lev x : In x L -> ql b < ql x.
    Proof. destruct b_spec as (W & A & B & _). apply lev; auto. Qed.
    Lemma b_lt : ql b < 29.
    Proof. pose proof (b_lev q q_in). pose proof (wf_level d q (proj1 (Lwf q q_in))). lia. Qed.
    Lemma ty_spec x : In x L -> (cty b x < childrenn d)%nat /\ within d (child d b (Z.of_nat (cty b x))) x.
    Proof.
      intros I. destruct b_spec as (W & _). 
      destruct (anc_child b x W (proj1 (Lwf x I)) (b_in x I) (b_lev x I)) as (R & H).
      unfold cty. rewrite Z2Nat.id by lia. split; [|auto]. destruct d; cbn [childrenn children] in *; lia.
    Qed.
    Lemma ty_mono x y : In x L -> In y L -> before d x y -> (cty b x <= cty b y)%nat.
    Proof.
      intros Ix Iy H. destruct (le_lt_dec (cty b x) (cty b y)) as [?|G]; [auto|exfalso].
      destruct (ty_spec x Ix) as (Rx & A & B). destruct (ty_spec y Iy) as (Ry & A' & B').
      destruct b_spec as (W & _).
      pose proof (child_order b (Z.of_nat (cty b y)) (Z.of_nat (cty b x)) W b_lt ltac:(lia)
                   ltac:(destruct d; cbn [childrenn children] in *; lia)).
      pose proof (size_pos x (proj1 (Lwf x Ix))). pose proof (size_pos y (proj1 (Lwf y Iy))).
      unfold before in H. lia.
    Qed.
    Lemma ty_sorted : StronglySorted (fun x y => (cty b x <= cty b y)%nat) L.
    Proof.
      assert (G : forall M, (forall x, In x M -> In x L) -> StronglySorted (before d) M ->
                 StronglySorted (fun x y => (cty b x <= cty b y)%nat) M).
      { induction M as [|x M IH]; intros Hin S; [constructor|]. inversion S as [|? ? S' F]; subst. constructor.
        - apply IH; auto. intros; apply Hin; right; auto.
        - rewrite Forall_forall in *. intros y Hy. apply ty_mono; [apply Hin; left; auto|apply Hin; right; auto|auto]. }
      apply G; auto.
    Qed.
    Lemma ends_differ : cty b q <> cty b lq.
    Proof.
      intros E. destruct (ty_spec q q_in) as (R & A). destruct (ty_spec lq lq_in) as (_ & B). rewrite <- E in B.
      destruct b_spec as (W & _ & _ & M).
      pose proof (child_wf d b (Z.of_nat (cty b q)) W b_lt ltac:(destruct d; cbn [childrenn children] in *; lia)) as (Wc & Lc & _).
      pose proof (M _ Wc A B) as C. pose proof (within_level _ _ Wc W C). lia.
    Qed.
    (** the quadrant the code works with is b in both cases *)
    Lemma code_b : (if ancestor_id d q (ql b0 + 1) =? ancestor_id d lq (ql b0 + 1) then b else b0) = b.
    Proof.
      destruct (Z.eqb_spec (ancestor_id d q (ql b0 + 1)) (ancestor_id d lq (ql b0 + 1))) as [E|E]; [auto|].
      destruct b_spec as (W & A & B & _).
      pose proof (within_level b0 b Wb0 W b0_b) as Lv.
      destruct (Z.eq_dec (ql b0) (ql b)) as [El|El]; [apply within_eq; auto; apply b0_b|].
      exfalso. apply E.
      destruct (anc_child b0 b Wb0 W b0_b ltac:(lia)) as (R & H).
      pose proof b_lt. 
      rewrite (in_child_id b0 q (ancestor_id d b (ql b0 + 1))); auto; try lia.
      - symmetry. apply in_child_id; auto; try lia; [apply Lwf; apply lq_in|]. eapply within_trans; eauto.
      - apply Lwf; apply q_in.
      - eapply within_trans; eauto.
    Qed.
    Definition grp (i : nat) : list quad := filter (fun x => Nat.eqb (cty b x) i) L.
    Lemma grp_in i x : In x (grp i) <-> In x L /\ cty b x = i.
    Proof. unfold grp. rewrite filter_In, Nat.eqb_eq. tauto. Qed.
    Lemma grp_lin i : linear (grp i).
    Proof. apply SS_filter. exact Lin. Qed.
    Lemma grp_ins i : (i < childrenn d)%nat -> inside (child d b (Z.of_nat i)) (grp i).
    Proof.
      intros Hi. apply Forall_forall. intros x I. apply grp_in in I. destruct I as (I & E).
      split; [apply Lwf; auto|]. destruct (ty_spec x I) as (_ & H). rewrite E in H. auto.
    Qed.
    Lemma grp_child i : (i < childrenn d)%nat -> wf d (child d b (Z.of_nat i)) /\ ql (child d b (Z.of_nat i)) = ql b + 1 /\
      within d b (child d b (Z.of_nat i)).
    Proof.
      intros Hi. assert (0 <= Z.of_nat i < children d) by (destruct d; cbn [childrenn children] in *; lia).
      destruct b_spec as (W & _). destruct (child_wf d b (Z.of_nat i) W b_lt H) as (A & B & _).
      split; [auto|]. split; [auto|]. apply child_within; auto. apply b_lt.
    Qed.
    Lemma grp_slice i : 
      let lo := countb (fun x => Nat.ltb (cty b x) i) L in
      let hi := countb (fun x => Nat.ltb (cty b x) (i + 1)) L in
      firstn (hi - lo) (skipn lo L) = grp i /\ (lo <= hi)%nat /\ (hi - lo = length (grp i))%nat.
    Proof. apply slice_type. apply ty_sorted. Qed.
    Lemma grp_nth i k : (k < length (grp i))%nat ->
      nth_error (grp i) k = nth_error L (countb (fun x => Nat.ltb (cty b x) i) L + k).
    Proof.
      intros Hk. destruct (grp_slice i) as (E & H & Hl). rewrite <- E.
      set (lo := countb (fun x => Nat.ltb (cty b x) i) L) in *.
      set (m := (countb (fun x => Nat.ltb (cty b x) (i + 1)) L - lo)%nat) in *.
      assert (F : forall (l : list quad) n k, (k < n)%nat -> nth_error (firstn n l) k = nth_error l k).
      { clear. induction l as [|x l IH]; intros n k H; [destruct n, k; reflexivity|].
        destruct n; [lia|]. destruct k; [reflexivity|]. cbn. apply IH. lia. }
      assert (G : forall (l : list quad) n k, nth_error (skipn n l) k = nth_error l (n + k)).
      { clear. induction l as [|x l IH]; intros n k; [destruct n, k; reflexivity|].
        destruct n; [reflexivity|]. cbn. apply IH. }
      rewrite F by lia. apply G.
    Qed.
  End Two.
  Unset Default Proof Using.

  (** all nodes lie inside any quadrant containing the list *)
  Lemma nodes_inside : forall f base L b0, wf d b0 -> linear L -> inside b0 L -> 
    forall n, In n (nodes f base L) -> wf d (fst n) /\ within d b0 (fst n).
  Proof.
    induction f as [|f IH]; intros base L b0 Wb0 Lin Ins n I; [destruct I|].
    destruct L as [|q [|q2 L]]; [destruct I| |].
    - destruct I as [<-|[]]. inversion Ins; auto.
    - rewrite nodes_eq in I. set (b := nearest_common_ancestor d q (last (q :: q2 :: L) q)) in *.
      destruct I as [<-|I].
      + split; [apply (b_spec b0 q q2 L); auto|apply b0_b; auto].
      + apply in_flat_map in I. destruct I as (i & Hi & I). apply in_seq in Hi.
        destruct (grp_child b0 q q2 L Wb0 Lin Ins i ltac:(lia)) as (Wc & _ & Wi).
        destruct (IH _ _ (child d b (Z.of_nat i)) Wc (grp_lin b0 q q2 L Wb0 Lin Ins i) (grp_ins b0 q q2 L Wb0 Lin Ins i ltac:(lia)) n I) as (A & B).
        split; [auto|]. eapply within_trans; [apply (b0_b b0 q q2 L); auto|]. eapply within_trans; eauto.
  Qed.

  Lemma SS_app {A} (R : A -> A -> Prop) l1 l2 : StronglySorted R l1 -> StronglySorted R l2 ->
    (forall x y, In x l1 -> In y l2 -> R x y) -> StronglySorted R (l1 ++ l2).
  Proof.
    induction 1 as [|x l S IH F]; intros S2 H; [auto|]. cbn. constructor.
    - apply IH; auto. intros; apply H; [right; auto|auto].
    - rewrite Forall_forall in *. intros y Hy. apply in_app_iff in Hy. destruct Hy; [auto|]. apply H; [left; auto|auto].
  Qed.

  Lemma SS_flat_map {A B} (R : B -> B -> Prop) (g : A -> list B) (l : list A) (lt : A -> A -> Prop) :
    StronglySorted lt l -> (forall a, In a l -> StronglySorted R (g a)) ->
    (forall a a' x y, In a l -> In a' l -> lt a a' -> In x (g a) -> In y (g a') -> R x y) ->
    StronglySorted R (flat_map g l).
  Proof.
    induction 1 as [|a l S IH F]; intros H1 H2; [constructor|]. cbn. apply SS_app.
    - apply H1. left; auto.
    - apply IH; intros; [apply H1; right; auto|]. apply (H2 a0 a'); auto; right; auto.
    - intros x y Hx Hy. apply in_flat_map in Hy. destruct Hy as (a' & I & Hy).
      apply (H2 a a'); auto; [left; auto|right; auto|]. rewrite Forall_forall in F. auto.
  Qed.

  Lemma SS_seq n : forall k, StronglySorted lt (seq k n).
  Proof.
    induction n as [|n IH]; intros k; [constructor|]. cbn. constructor; [apply IH|].
    apply Forall_forall. intros x Hx. apply in_seq in Hx. lia.
  Qed.

  Definition node_lt (m n : node) : Prop := compare d (fst m) (fst n) < 0.

  Lemma nodes_sorted : forall f base L b0, wf d b0 -> linear L -> inside b0 L ->
    StronglySorted node_lt (nodes f base L).
  Proof.
    induction f as [|f IH]; intros base L b0 Wb0 Lin Ins; [constructor|].
    destruct L as [|q [|q2 L]]; [constructor|repeat constructor|].
    rewrite nodes_eq. set (b := nearest_common_ancestor d q (last (q :: q2 :: L) q)) in *.
    destruct (b_spec b0 q q2 L Wb0 Lin Ins) as (Wb & _). fold b in Wb.
    pose proof (b_lt b0 q q2 L Wb0 Lin Ins) as Lb. fold b in Lb.
    assert (C : forall i n, (i < childrenn d)%nat -> In n (nodes f (base + countb (fun x => Nat.ltb (cty b x) i) (q :: q2 :: L))
             (filter (fun x => Nat.eqb (cty b x) i) (q :: q2 :: L))) ->
             wf d (fst n) /\ within d (child d b (Z.of_nat i)) (fst n)).
    { intros i n Hi I. destruct (grp_child b0 q q2 L Wb0 Lin Ins i Hi) as (Wc & _ & Wi).
      apply (nodes_inside _ _ _ (child d b (Z.of_nat i)) Wc (grp_lin b0 q q2 L Wb0 Lin Ins i) (grp_ins b0 q q2 L Wb0 Lin Ins i Hi) n I). }
    constructor.
    - apply (SS_flat_map _ _ _ lt); [apply SS_seq| |].
      + intros i Hi. apply in_seq in Hi. apply (IH _ _ (child d b (Z.of_nat i))).
        * apply (grp_child b0 q q2 L Wb0 Lin Ins i). lia.
        * apply (grp_lin b0 q q2 L Wb0 Lin Ins).
        * apply (grp_ins b0 q q2 L Wb0 Lin Ins i). lia.
      + intros i j x y Hi Hj Hij Hx Hy. apply in_seq in Hi. apply in_seq in Hj.
        destruct (C i x ltac:(lia) Hx) as (Wx & Ax & Bx). destruct (C j y ltac:(lia) Hy) as (Wy & Ay & By).
        unfold node_lt. apply (compare_wf d (fst x) (fst y) Wx Wy). left.
        pose proof (child_order b (Z.of_nat i) (Z.of_nat j) Wb Lb ltac:(lia) ltac:(destruct d; cbn [childrenn children] in *; lia)).
        pose proof (size_pos _ Wx). lia.
    - apply Forall_forall. intros n I. apply in_flat_map in I. destruct I as (i & Hi & I). apply in_seq in Hi.
      destruct (C i n ltac:(lia) I) as (Wn & Wi).
      destruct (grp_child b0 q q2 L Wb0 Lin Ins i ltac:(lia)) as (Wc & Lc & Wc').
      fold b in Wc, Lc, Wc'. pose proof (within_level _ _ Wc Wn Wi).
      unfold node_lt. cbn [fst]. apply (compare_wf d b (fst n) Wb Wn).
      destruct (within_trans _ _ _ Wc' Wi) as (A & _). lia.
  Qed.

  Lemma nodes_leaf : forall f base L b0, wf d b0 -> linear L -> inside b0 L -> 31 - ql b0 <= Z.of_nat f ->
    forall x k, In (x, Some k) (nodes f base L) <-> exists i, k = (base + i)%nat /\ nth_error L i = Some x.
  Proof.
    induction f as [|f IH]; intros base L b0 Wb0 Lin Ins Hf x k.
    { pose proof (wf_level d b0 Wb0). lia. }
    destruct L as [|q [|q2 L]].
    - cbn. split; [tauto|]. intros (i & _ & H). destruct i; discriminate.
    - cbn. split.
      + intros [H|[]]. inversion H; subst. exists 0%nat. split; [lia|reflexivity].
      + intros (i & -> & H). destruct i as [|[|i]]; [|discriminate..]. inversion H; subst. left. repeat f_equal. lia.
    - rewrite nodes_eq. set (b := nearest_common_ancestor d q (last (q :: q2 :: L) q)) in *.
      pose proof (b_spec b0 q q2 L Wb0 Lin Ins) as (Wb & _). fold b in Wb.
      pose proof (within_level _ _ Wb0 Wb (b0_b b0 q q2 L Wb0 Lin Ins)) as Lv.
      assert (REC : forall i, (i < childrenn d)%nat -> forall x k, 
        In (x, Some k) (nodes f (base + countb (fun x => Nat.ltb (cty b x) i) (q :: q2 :: L))
             (filter (fun x => Nat.eqb (cty b x) i) (q :: q2 :: L))) <->
        exists j, k = (base + countb (fun x => Nat.ltb (cty b x) i) (q :: q2 :: L) + j)%nat /\
           nth_error (filter (fun x => Nat.eqb (cty b x) i) (q :: q2 :: L)) j = Some x).
      { intros i Hi x' k'. destruct (grp_child b0 q q2 L Wb0 Lin Ins i Hi) as (Wc & Lc & _). fold b in Wc, Lc.
        apply (IH _ _ (child d b (Z.of_nat i))); auto; [apply (grp_lin b0 q q2 L Wb0 Lin Ins)|apply (grp_ins b0 q q2 L Wb0 Lin Ins); auto|]. lia. }
      split.
      + intros [H|H]; [discriminate|]. apply in_flat_map in H. destruct H as (i & Hi & H). apply in_seq in Hi.
        apply REC in H; [|lia]. destruct H as (j & -> & H).
        exists (countb (fun x => Nat.ltb (cty b x) i) (q :: q2 :: L) + j)%nat. split; [lia|].
        pose proof (grp_nth b0 q q2 L Wb0 Lin Ins i j) as G. fold b in G. unfold b in *. 
        rewrite <- H. symmetry. apply G. apply nth_error_Some. unfold grp. congruence.
      + intros (i & -> & H). right. apply in_flat_map.
        assert (I : In x (q :: q2 :: L)) by (eapply nth_error_In; eauto).
        destruct (ty_spec b0 q q2 L Wb0 Lin Ins x I) as (Hty & _). fold b in Hty.
        exists (cty b x). split; [apply in_seq; lia|]. apply REC; [lia|].
        set (lo := countb (fun y => Nat.ltb (cty b y) (cty b x)) (q :: q2 :: L)).
        assert (lo <= i < lo + length (grp q q2 L (cty b x)))%nat as R.
        { pose proof (grp_slice b0 q q2 L Wb0 Lin Ins (cty b x)) as (Es & H1 & H2).
          fold b in Es, H1, H2. fold lo in Es, H1, H2.
          rewrite <- H2.
          assert (CNT : forall t, (i < countb (fun y => Nat.ltb (cty b y) t) (q :: q2 :: L) <-> cty b x < t)%nat).
          { intros t. pose proof (ty_sorted b0 q q2 L Wb0 Lin Ins) as S. fold b in S.
            revert H S. generalize (q :: q2 :: L). clear. intros M. revert i.
            induction M as [|y M IHM]; intros i H S; [destruct i; discriminate|].
            inversion S as [|? ? S' F]; subst. rewrite countb_cons. destruct i as [|i].
            - inversion H; subst. destruct (Nat.ltb_spec (cty b x) t).
              + lia.
              + enough (countb (fun y => Nat.ltb (cty b y) t) M = 0)%nat by lia.
                unfold countb. rewrite filter_nil; [reflexivity|]. intros z Hz. rewrite Forall_forall in F.
                specialize (F z Hz). apply Nat.ltb_ge. lia.
            - cbn in H. specialize (IHM i H S').
              rewrite Forall_forall in F. specialize (F x (nth_error_In _ _ H)).
              destruct (Nat.ltb_spec (cty b y) t); [lia|].
              enough (countb (fun y => Nat.ltb (cty b y) t) M = 0)%nat by lia.
              unfold countb. rewrite filter_nil; [reflexivity|]. intros z Hz.
              assert (FF : Forall (fun z => cty b y <= cty b z)%nat M) by (inversion S; auto).
              rewrite Forall_forall in FF. specialize (FF z Hz). apply Nat.ltb_ge. lia. }
          pose proof (CNT (cty b x)). pose proof (CNT (cty b x + 1)%nat). fold lo in H0. lia. }
        exists (i - lo)%nat. split; [lia|].
        pose proof (grp_nth b0 q q2 L Wb0 Lin Ins (cty b x) (i - lo) ltac:(lia)) as G.
        fold b in G. fold lo in G.
        unfold grp in G. fold b in G.
        rewrite G. replace (lo + (i - lo))%nat with i by lia. exact H.
  Qed.

  Lemma nodes_branch : forall f base L b0, wf d b0 -> linear L -> inside b0 L -> 31 - ql b0 <= Z.of_nat f ->
    forall c, In (c, None) (nodes f base L) <-> branch d L c.
  Proof.
    induction f as [|f IH]; intros base L b0 Wb0 Lin Ins Hf c.
    { pose proof (wf_level d b0 Wb0). lia. }
    destruct L as [|q [|q2 L]].
    - cbn. split; [tauto|]. intros (_ & _ & i & j & x & y & _ & _ & _ & [] & _).
    - cbn. split; [intros [H|[]]; discriminate|].
      intros (Wc & Lc & i & j & x & y & Hi & Hj & N & [<-|[]] & [<-|[]] & A & B). exfalso. apply N.
      inversion Ins as [|? ? (Wq & _) _]; subst. apply (child_unique c q); auto.
    - rewrite nodes_eq. set (b := nearest_common_ancestor d q (last (q :: q2 :: L) q)) in *.
      pose proof (b_spec b0 q q2 L Wb0 Lin Ins) as (Wb & Bq & Blq & _). fold b in Wb, Bq, Blq.
      pose proof (within_level _ _ Wb0 Wb (b0_b b0 q q2 L Wb0 Lin Ins)) as Lv.
      pose proof (b_lt b0 q q2 L Wb0 Lin Ins) as Lb. fold b in Lb.
      set (LL := q :: q2 :: L) in *.
      assert (REC : forall i, (i < childrenn d)%nat -> forall c,
        In (c, None) (nodes f (base + countb (fun x => Nat.ltb (cty b x) i) LL)
             (filter (fun x => Nat.eqb (cty b x) i) LL)) <->
        branch d (filter (fun x => Nat.eqb (cty b x) i) LL) c).
      { intros i Hi c'. destruct (grp_child b0 q q2 L Wb0 Lin Ins i Hi) as (Wc & Lc & _). fold LL in Wc, Lc. fold b in Wc, Lc.
        apply (IH _ _ (child d b (Z.of_nat i))); auto; [apply (grp_lin b0 q q2 L Wb0 Lin Ins)|apply (grp_ins b0 q q2 L Wb0 Lin Ins); auto|]. lia. }
      split.
      + intros [H|H].
        * inversion H; subst c. split; [auto|]. split; [auto|].
          destruct (ty_spec b0 q q2 L Wb0 Lin Ins q (q_in b0 q q2 L Wb0 Lin Ins)) as (R1 & A1).
          destruct (ty_spec b0 q q2 L Wb0 Lin Ins _ (lq_in b0 q q2 L Wb0 Lin Ins)) as (R2 & A2).
          pose proof (ends_differ b0 q q2 L Wb0 Lin Ins) as N.
          fold LL in R1, A1, R2, A2, N. fold b in R1, A1, R2, A2, N.
          exists (Z.of_nat (cty b q)), (Z.of_nat (cty b (last LL q))), q, (last LL q).
          assert (CC : Z.of_nat (childrenn d) = children d) by (destruct d; reflexivity).
          fold LL in R2, N. split; [lia|]. split; [lia|]. split; [lia|].
          split; [apply (q_in b0 q q2 L Wb0 Lin Ins)|]. split; [apply (lq_in b0 q q2 L Wb0 Lin Ins)|]. split; auto.
        * apply in_flat_map in H. destruct H as (i & Hi & H). apply in_seq in Hi. apply REC in H; [|lia].
          destruct H as (Wc & Lc & i' & j & x & y & Hi' & Hj & N & Ix & Iy & A & B).
          split; [auto|]. split; [auto|]. apply filter_In in Ix. apply filter_In in Iy.
          exists i', j, x, y. repeat (split; [tauto|]). tauto.
      + intros (Wc & Lc & i & j & x & y & Hi & Hj & N & Ix & Iy & A & B).
        destruct (Lwf b0 q q2 L Wb0 Lin Ins x Ix) as (Wx & _). destruct (Lwf b0 q q2 L Wb0 Lin Ins y Iy) as (Wy & _).
        pose proof (b_in b0 q q2 L Wb0 Lin Ins x Ix) as Bx. pose proof (b_in b0 q q2 L Wb0 Lin Ins y Iy) as By. fold LL in Bx, By. fold b in Bx, By.
        pose proof (within_trans _ _ _ (child_within c i Wc Lc Hi) A) as Cx.
        pose proof (within_trans _ _ _ (child_within c j Wc Lc Hj) B) as Cy.
        pose proof (size_pos x Wx) as Sx.
        destruct (nested b c Wb Wc) as [H|H]; [unfold within in *; lia|unfold within in *; lia| |].
        * pose proof (within_level _ _ Wb Wc H).
          destruct (Z.eq_dec (ql b) (ql c)) as [E|E]; [left; f_equal; apply within_eq; auto|].
          right. destruct (anc_child b c Wb Wc H ltac:(lia)) as (R & Hc).
          set (m := ancestor_id d c (ql b + 1)) in *.
          assert (CC : Z.of_nat (childrenn d) = children d) by (destruct d; reflexivity).
          assert (T : forall z, wf d z -> within d c z -> cty b z = Z.to_nat m).
          { intros z Wz Z0. unfold cty. f_equal. apply in_child_id; auto. eapply within_trans; eauto. }
          apply in_flat_map. exists (Z.to_nat m). split; [apply in_seq; lia|]. apply REC; [lia|].
          split; [auto|]. split; [auto|]. exists i, j, x, y.
          split; [auto|]. split; [auto|]. split; [auto|].
          split; [apply filter_In; split; [auto|apply Nat.eqb_eq; auto]|].
          split; [apply filter_In; split; [auto|apply Nat.eqb_eq; auto]|]. auto.
        * pose proof (within_level _ _ Wc Wb H).
          destruct (Z.eq_dec (ql c) (ql b)) as [E|E]; [left; f_equal; symmetry; apply within_eq; auto|].
          exfalso. destruct (anc_child c b Wc Wb H ltac:(lia)) as (R & Hb). apply N.
          transitivity (ancestor_id d b (ql c + 1)).
          -- apply (child_unique c x); auto. eapply within_trans; eauto.
          -- apply (child_unique c y); auto. eapply within_trans; eauto.
  Qed.
End Geo.

(** ** The code follows the protocol *)
Section Code.
  Variable d : dim.
  Variables (St Pt : Type).
  Variable rec : lrec St Pt.
  Variables (tree off : Z).

  Definition act_of (actives : option (list nat)) : list nat :=
    match points rec, actives with
    | Some pts, None => seq 0 (length pts)
    | _, None => []
    | _, Some a => a
    end.
  Definition rel (actives : option (list nat)) (ps : option (list Pt)) : Prop :=
    match points rec with
    | None => ps = None
    | Some pts => exists l, ps = Some l /\ Forall2 (fun i p => nth_error pts i = Some p) (act_of actives) l
    end.

  Lemma point_loop_spec pts n leaf : forall act l s chact,
    Forall2 (fun i p => nth_error pts i = Some p) act l ->
    exists acc, point_loop St Pt rec tree pts s (fst n) (node_num off n) leaf act chact =
      Some (fst (ask St Pt rec tree off s n l), chact ++ (if leaf then [] else acc)) /\
      Forall2 (fun i p => nth_error pts i = Some p) acc (snd (ask St Pt rec tree off s n l)).
  Proof.
    intros act l s chact H. revert s chact. induction H as [|i p act l E F IH]; intros s chact.
    - exists []. split; [|constructor]. cbn. destruct leaf; rewrite app_nil_r; reflexivity.
    - cbn [point_loop ask]. rewrite E. destruct (point_fn rec s tree (fst n) (node_num off n) p) as (s1, m).
      destruct (IH s1 (if negb leaf && m then chact ++ [i] else chact)) as (acc & -> & HF).
      destruct (ask St Pt rec tree off s1 n l) as (s2, r). cbn [fst snd] in *.
      destruct leaf; cbn [negb andb].
      + destruct m; [exists (i :: acc)|exists acc]; split; auto.
      + destruct m; [exists (i :: acc)|exists acc]; (split; [|auto]); [|reflexivity].
        rewrite <- app_assoc. reflexivity.
  Qed.

  Lemma map_flat_map {A B C} (f : B -> C) (g : A -> list B) l : map f (flat_map g l) = flat_map (fun a => map f (g a)) l.
  Proof. induction l as [|a l IH]; [reflexivity|]. cbn. rewrite map_app, IH. reflexivity. Qed.

  Notation RUN := (run d St Pt rec tree off).
  Notation LR := (local_recursion d St Pt rec tree off).

  Theorem rec_run : forall fuel s b0 base L actives ps,
    wf d b0 -> linear d L -> inside d b0 L -> 31 - ql b0 <= Z.of_nat fuel -> rel actives ps ->
    LR fuel s b0 base L actives = Some (RUN s (map (fun n => (n, ps)) (nodes d fuel base L))).
  Proof.
    induction fuel as [|f IH]; intros s b0 base L actives ps Wb0 Lin Ins Hf R.
    { pose proof (wf_level d b0 Wb0). lia. }
    destruct L as [|q more]; [reflexivity|].
    (* the descent into the children *)
    assert (DESC : forall q2 L0, more = q2 :: L0 ->
      let b := nearest_common_ancestor d q (last (q :: more) q) in
      forall s chact ps', rel chact ps' ->
      fold_left (fun (os : option St) (i : nat) =>
                match os with
                | None => None
                | Some s =>
                  let lo := nth i (split_array d (q :: more) (ql b)) 0%nat in
                  let hi := nth (i + 1) (split_array d (q :: more) (ql b)) 0%nat in
                  if Nat.ltb lo hi then
                    LR f s (child d b (Z.of_nat i)) (base + lo)
                      (firstn (hi - lo) (skipn lo (q :: more))) chact
                  else Some s
                end) (seq 0 (childrenn d)) (Some s) =
      Some (RUN s (map (fun n => (n, ps')) (flat_map (fun i =>
          nodes d f (base + countb (fun x => Nat.ltb (cty d b x) i) (q :: more))
             (filter (fun x => Nat.eqb (cty d b x) i) (q :: more)))
          (seq 0 (childrenn d)))))).
    { intros q2 L0 -> b s0 chact ps' R'.
      pose proof (b_spec d b0 q q2 L0 Wb0 Lin Ins) as (Wb & _). fold b in Wb.
      pose proof (within_level d _ _ Wb0 Wb (b0_b d b0 q q2 L0 Wb0 Lin Ins)) as Lv.
      pose proof (b_lt d b0 q q2 L0 Wb0 Lin Ins) as Lb. fold b in Lb.
      assert (G : forall is s, (forall i, In i is -> (i < childrenn d)%nat) -> StronglySorted lt is ->
        fold_left (fun (os : option St) (i : nat) =>
                match os with
                | None => None
                | Some s =>
                  let lo := nth i (split_array d (q :: q2 :: L0) (ql b)) 0%nat in
                  let hi := nth (i + 1) (split_array d (q :: q2 :: L0) (ql b)) 0%nat in
                  if Nat.ltb lo hi then
                    LR f s (child d b (Z.of_nat i)) (base + lo)
                      (firstn (hi - lo) (skipn lo (q :: q2 :: L0))) chact
                  else Some s
                end) is (Some s) =
        Some (RUN s (map (fun n => (n, ps')) (flat_map (fun i =>
          nodes d f (base + countb (fun x => Nat.ltb (cty d b x) i) (q :: q2 :: L0))
             (filter (fun x => Nat.eqb (cty d b x) i) (q :: q2 :: L0))) is)))).
      2:{ apply G; [intros i Hi; apply in_seq in Hi; lia|apply SS_seq]. }
      induction is as [|i is IHis]; intros s1 Hin SS; [reflexivity|].
      cbn [fold_left flat_map]. rewrite map_app.
      assert (Hi : (i < childrenn d)%nat) by (apply Hin; left; auto).
      inversion SS as [|? ? SS' FF]; subst.
      pose proof (grp_slice d b0 q q2 L0 Wb0 Lin Ins i) as GS. fold b in GS. cbv zeta in GS.
      unfold grp in GS. fold b in GS.
      destruct (grp_child d b0 q q2 L0 Wb0 Lin Ins i Hi) as (Wc & Lc & Wi). fold b in Wc, Lc, Wi.
      rewrite (run_app d St Pt rec tree off (length (map (fun n => (n, ps')) (nodes d f
         (base + countb (fun x => Nat.ltb (cty d b x) i) (q :: q2 :: L0))
             (filter (fun x => Nat.eqb (cty d b x) i) (q :: q2 :: L0)))))) by
       (try apply Nat.le_refl;
        intros n1 p1 n2 p2 I1 I2; apply in_map_iff in I1; apply in_map_iff in I2;
        destruct I1 as (n1' & E1 & I1); inversion E1; subst; clear E1;
        destruct I2 as (n2' & E2 & I2); inversion E2; subst; clear E2;
        apply in_flat_map in I2; destruct I2 as (j & Hj & I2);
        assert (Hj' : (j < childrenn d)%nat) by (apply Hin; right; auto);
        rewrite Forall_forall in FF; specialize (FF j Hj);
        destruct (grp_child d b0 q q2 L0 Wb0 Lin Ins j Hj') as (Wcj & _);
        destruct (nodes_inside d _ _ _ _ Wc (grp_lin d b0 q q2 L0 Wb0 Lin Ins i) (grp_ins d b0 q q2 L0 Wb0 Lin Ins i Hi) n1 I1) as (W1 & B1);
        destruct (nodes_inside d _ _ _ _ Wcj (grp_lin d b0 q q2 L0 Wb0 Lin Ins j) (grp_ins d b0 q q2 L0 Wb0 Lin Ins j Hj') n2 I2) as (W2 & B2);
        fold b in B2;
        pose proof (child_order d b (Z.of_nat i) (Z.of_nat j) Wb Lb ltac:(lia) ltac:(destruct d; cbn [childrenn children] in *; lia));
        pose proof (size_pos d _ W1); pose proof (size_pos d _ W2);
        apply not_true_iff_false; rewrite withinb_iff; unfold within in *; lia).
      rewrite <- IHis; [|intros; apply Hin; right; auto|auto]. f_equal.
      cbv zeta. unfold split_array.
      rewrite !(nth_array_split (fun x => Z.to_nat (ancestor_id d x (ql b + 1)))) by lia.
      change (fun x : quad => (Z.to_nat (ancestor_id d x (ql b + 1)) <? i)%nat) with (fun x : quad => (cty d b x <? i)%nat).
      change (fun x : quad => (Z.to_nat (ancestor_id d x (ql b + 1)) <? i + 1)%nat) with (fun x : quad => (cty d b x <? i + 1)%nat).
      destruct GS as (GS1 & GS2 & GS3). rewrite GS1.
      match goal with |- (if Nat.ltb ?lo ?hi then _ else _) = _ => destruct (Nat.ltb_spec lo hi) as [Hlt|Hge] end.
      - apply IH; auto; [apply (grp_lin d b0 q q2 L0 Wb0 Lin Ins)|apply (grp_ins d b0 q q2 L0 Wb0 Lin Ins); auto|lia].
      - assert (E0 : filter (fun x : quad => (cty d b x =? i)%nat) (q :: q2 :: L0) = []).
        { apply length_zero_iff_nil. lia. }
        rewrite E0. destruct f; reflexivity. }
    cbn [local_recursion].
    fold (act_of actives).
    unfold rel in R. destruct (points rec) as [pts|] eqn:EP.
    - destruct R as (l & -> & F2).
      destruct (act_of actives) as [|a0 act] eqn:EA.
      { inversion F2; subst. cbn [length Nat.eqb]. rewrite run_empty; [reflexivity|].
        intros n ps' I. apply in_map_iff in I. destruct I as (? & E & _). inversion E; auto. }
      destruct l as [|p0 l]; [inversion F2|]. cbn [length Nat.eqb].
      destruct more as [|q2 L0].
      + cbn [nodes map]. rewrite run_cons. unfold visit, call_quadrant, ask_quadrant.
        change (off + Z.of_nat base) with (node_num off (q, Some base)).
        cbn [fst]. destruct (match quadrant_fn rec with Some _ => _ | None => _ end) as (s1, go).
        destruct go; cbn [negb]; [|reflexivity].
        destruct (point_loop_spec pts (q, Some base) true (a0 :: act) (p0 :: l) s1 [] F2) as (acc' & PL & _).
        cbn [fst] in PL. rewrite PL. clear PL.
        destruct (ask St Pt rec tree off s1 (q, Some base) (p0 :: l)) as (s2, r). cbn [fst snd app].
        destruct (if call_post rec then _ else (s2, true)) as (s3, keep).
        destruct keep; reflexivity.
      + specialize (DESC q2 L0 eq_refl). cbv zeta in DESC.
        pose proof (code_b d b0 q q2 L0 Wb0 Lin Ins) as CB.
        rewrite CB. clear CB. rewrite nodes_eq.
        pose proof (b_spec d b0 q q2 L0 Wb0 Lin Ins) as (Wb & _).
        assert (ALL : forall n, In n (flat_map (fun i =>
          nodes d f (base + countb (fun x => Nat.ltb (cty d (nearest_common_ancestor d q (last (q :: q2 :: L0) q)) x) i) (q :: q2 :: L0))
             (filter (fun x => Nat.eqb (cty d (nearest_common_ancestor d q (last (q :: q2 :: L0) q)) x) i) (q :: q2 :: L0)))
          (seq 0 (childrenn d))) -> withinb d (nearest_common_ancestor d q (last (q :: q2 :: L0) q)) (fst n) = true).
        { intros n I. apply in_flat_map in I. destruct I as (i & Hi & I). apply in_seq in Hi.
          destruct (grp_child d b0 q q2 L0 Wb0 Lin Ins i ltac:(lia)) as (Wc & Lc & Wi).
          destruct (nodes_inside d _ _ _ _ Wc (grp_lin d b0 q q2 L0 Wb0 Lin Ins i) (grp_ins d b0 q q2 L0 Wb0 Lin Ins i ltac:(lia)) n I) as (W1 & B1).
          apply withinb_iff. eapply within_trans; eauto. }
        set (b := nearest_common_ancestor d q (last (q :: q2 :: L0) q)) in *.
        cbn [map]. rewrite run_cons. unfold visit, call_quadrant, ask_quadrant.
        change (-1) with (node_num off (b, None)).
        cbn [fst]. destruct (match quadrant_fn rec with Some _ => _ | None => _ end) as (s1, go).
        destruct go; cbn [negb].
        2:{ rewrite update_drop by exact ALL. reflexivity. }
        destruct (point_loop_spec pts (b, None) false (a0 :: act) (p0 :: l) s1 [] F2) as (acc' & PL & F3).
        cbn [fst] in PL. rewrite PL. clear PL.
        destruct (ask St Pt rec tree off s1 (b, None) (p0 :: l)) as (s2, r). cbn [fst snd app] in *.
        destruct (if call_post rec then _ else (s2, true)) as (s3, keep).
        destruct keep.
        * destruct acc' as [|a1 acc'].
          { inversion F3; subst. rewrite update_all by exact ALL. rewrite run_empty; [reflexivity|].
            intros n ps' I. apply in_map_iff in I. destruct I as (? & E & _). inversion E; auto. }
          rewrite update_all by exact ALL. apply DESC. unfold rel. rewrite EP. exists r. split; [auto|].
          unfold act_of. rewrite EP. exact F3.
        * rewrite update_drop by exact ALL. reflexivity.
    - subst ps. destruct more as [|q2 L0].
      + cbn [nodes map]. rewrite run_cons. unfold visit, call_quadrant, ask_quadrant.
        change (off + Z.of_nat base) with (node_num off (q, Some base)).
        cbn [fst]. destruct (match quadrant_fn rec with Some _ => _ | None => _ end) as (s1, go).
        destruct go; reflexivity.
      + specialize (DESC q2 L0 eq_refl). cbv zeta in DESC.
        pose proof (code_b d b0 q q2 L0 Wb0 Lin Ins) as CB.
        rewrite CB. clear CB. rewrite nodes_eq.
        pose proof (b_spec d b0 q q2 L0 Wb0 Lin Ins) as (Wb & _).
        assert (ALL : forall n, In n (flat_map (fun i =>
          nodes d f (base + countb (fun x => Nat.ltb (cty d (nearest_common_ancestor d q (last (q :: q2 :: L0) q)) x) i) (q :: q2 :: L0))
             (filter (fun x => Nat.eqb (cty d (nearest_common_ancestor d q (last (q :: q2 :: L0) q)) x) i) (q :: q2 :: L0)))
          (seq 0 (childrenn d))) -> withinb d (nearest_common_ancestor d q (last (q :: q2 :: L0) q)) (fst n) = true).
        { intros n I. apply in_flat_map in I. destruct I as (i & Hi & I). apply in_seq in Hi.
          destruct (grp_child d b0 q q2 L0 Wb0 Lin Ins i ltac:(lia)) as (Wc & Lc & Wi).
          destruct (nodes_inside d _ _ _ _ Wc (grp_lin d b0 q q2 L0 Wb0 Lin Ins i) (grp_ins d b0 q q2 L0 Wb0 Lin Ins i ltac:(lia)) n I) as (W1 & B1).
          apply withinb_iff. eapply within_trans; eauto. }
        set (b := nearest_common_ancestor d q (last (q :: q2 :: L0) q)) in *.
        cbn [map]. rewrite run_cons. unfold visit, call_quadrant, ask_quadrant.
        change (-1) with (node_num off (b, None)).
        cbn [fst]. destruct (match quadrant_fn rec with Some _ => _ | None => _ end) as (s1, go).
        destruct go; cbn [negb].
        * rewrite update_all by exact ALL. apply DESC. unfold rel. rewrite EP. reflexivity.
        * rewrite update_drop by exact ALL. reflexivity.
  Qed.
End Code.
