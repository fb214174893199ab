(** * Property C73: p4est_connectivity_is_equal and p4est_connectivity_is_equivalent *)

From Coq Require Import ZArith List Bool Lia ZifyBool Permutation Sorted Relations.
From Verif Require Import Quad Spec Neighbor Transform Partition Conn ConnLemmas ConnBounds Permute PermuteArray ConnComplete ConnCompleteArray ConnCompleteCorners PropertiesConn Join JoinArray JoinCorners JoinFaces PropertiesJoin Equiv.
Import ListNotations.
Open Scope Z_scope.

(** ** memcmp *)
Lemma eqlist_eq : forall a b, eqlist a b = true <-> a = b.
Proof.
  induction a as [|x a IH]; intros [|y b]; cbn [eqlist]; [tauto|split; discriminate|split; discriminate|].
  rewrite andb_true_iff, Z.eqb_eq, IH. split; [intros (-> & ->); auto|intros E; injection E as -> ->; auto].
Qed.
Lemma memeq_full a b n : zlen a = n -> zlen b = n -> exists r, memeq a b n = Some r /\ (r = true <-> a = b).
Proof.
  intros A B. unfold memeq. replace ((n <=? zlen a) && (n <=? zlen b)) with true by lia.
  rewrite !firstn_all2 by (unfold zlen in *; lia). eexists. split; [reflexivity|]. apply eqlist_eq.
Qed.
Lemma andthen_dec m k (P Q : Prop) : (exists r, m = Some r /\ (r = true <-> P)) -> (P -> exists r, k = Some r /\ (r = true <-> Q)) ->
  exists r, m ;; k = Some r /\ (r = true <-> P /\ Q).
Proof.
  intros (r & -> & E) K. destruct r; cbn [andthen].
  - destruct K as (r & -> & F); [apply E; auto|]. exists r. split; [auto|]. rewrite F. tauto.
  - exists false. split; [auto|]. split; [discriminate|]. intros (H & _). apply E in H. discriminate.
Qed.
Lemma each_dec f (P : Z -> Prop) : forall n i, (forall j, i <= j < i + Z.of_nat n -> exists r, f j = Some r /\ (r = true <-> P j)) ->
  exists r, each f i n = Some r /\ (r = true <-> forall j, i <= j < i + Z.of_nat n -> P j).
Proof.
  induction n as [|n IH]; intros i H; cbn [each].
  - exists true. split; [auto|]. split; [intros _ j Hj; lia|auto].
  - destruct (andthen_dec (f i) (each f (i + 1) n) (P i) (forall j, i + 1 <= j < i + 1 + Z.of_nat n -> P j)) as (r & E & F).
    + apply H. lia.
    + intros _. apply IH. intros j Hj. apply H. lia.
    + exists r. split; [auto|]. rewrite F. split.
      * intros (A & B) j Hj. destruct (Z.eq_dec j i) as [->|]; [auto|]. apply B. lia.
      * intros A. split; [apply A; lia|]. intros j Hj. apply A. lia.
Qed.
Lemma plain (b : bool) (P : Prop) : (b = true <-> P) -> exists r, Some b = Some r /\ (r = true <-> P).
Proof. intros H. exists b. auto. Qed.

(** ** the arrays of a connectivity, as p4est_connectivity_new and p4est_connectivity_set_attr allocate them *)
Record sized (d : dim) (c : conn) : Prop := {
  sz_alloc : allocated d c;
  sz_vertices : 0 < c_nv c -> exists v, c_vertices c = Some v /\ zlen v = 3 * c_nv c;
  sz_attr : forall a, c_tta c = Some a -> zlen a = c_nt c * c_attr c;
  sz_edges : d = D3 -> zget (c_eoff c) (c_ne c) = Some (zlen (c_ett c)) /\ zlen (c_ete c) = zlen (c_ett c);
  sz_corners : zget (c_coff c) (c_nc c) = Some (zlen (c_ctt c)) /\ zlen (c_ctc c) = zlen (c_ctt c) }.
(** pointers that are not needed are NULL *)
Record tidy (d : dim) (c : conn) : Prop := {
  td_vertices : c_nv c = 0 -> c_vertices c = None /\ c_ttv c = None;
  td_edges : d = D3 -> c_ne c = 0 -> c_tte c = [];
  td_corners : c_nc c = 0 -> c_ttc c = [];
  td_2d : d = D2 -> c_ne c = 0 /\ c_tte c = [] /\ c_eoff c = [] /\ c_ett c = [] /\ c_ete c = [] }.

Definition equal_members (d : dim) (c1 c2 : conn) : Prop :=
  (c_nv c1 = c_nv c2 /\ c_nt c1 = c_nt c2 /\ (d = D3 -> c_ne c1 = c_ne c2) /\ c_nc c1 = c_nc c2) /\
  (0 < c_nv c1 -> c_vertices c1 = c_vertices c2 /\ c_ttv c1 = c_ttv c2) /\
  (d = D3 -> 0 < c_ne c1 -> c_tte c1 = c_tte c2) /\
  (0 < c_nc c1 -> c_ttc c1 = c_ttc c2) /\
  c_ttt c1 = c_ttt c2 /\ c_ttf c1 = c_ttf c2 /\
  (is_null (c_tta c1) = is_null (c_tta c2) /\ c_attr c1 = c_attr c2) /\
  c_tta c1 = c_tta c2 /\
  (d = D3 -> c_eoff c1 = c_eoff c2 /\ c_ett c1 = c_ett c2 /\ c_ete c1 = c_ete c2) /\
  c_coff c1 = c_coff c2 /\ c_ctt c1 = c_ctt c2 /\ c_ctc c1 = c_ctc c2.

Lemma omemeq_full a b x y n : a = Some x -> b = Some y -> zlen x = n -> zlen y = n -> exists r, omemeq a b n = Some r /\ (r = true <-> a = b).
Proof.
  intros -> -> A B. destruct (memeq_full x y n A B) as (r & E & F). exists r. split; [exact E|]. rewrite F. split; [intros ->; auto|apply some_eq].
Qed.
Lemma equal_spec d c1 c2 : sized d c1 -> sized d c2 -> exists r, conn_is_equal d c1 c2 = Some r /\ (r = true <-> equal_members d c1 c2).
Proof.
  intros S1 S2. destruct (sz_alloc _ _ S1) as (A1 & A2 & A3 & A4 & A5 & A6 & A7 & A8 & A9 & A10). destruct (sz_alloc _ _ S2) as (B1 & B2 & B3 & B4 & B5 & B6 & B7 & B8 & B9 & B10).
  unfold conn_is_equal, equal_members.
  apply andthen_dec. { apply plain. destruct d; cbn [is3]; split; intros H; [repeat split; try lia; discriminate|lia|repeat split; lia|]. destruct H as (H1 & H2 & H3 & H4). specialize (H3 eq_refl). lia. }
  intros (EV & ET & EE & EC).
  apply andthen_dec.
  { destruct (0 <? c_nv c1) eqn:E.
    - destruct (sz_vertices _ _ S1 ltac:(lia)) as (v1 & V1 & L1). destruct (sz_vertices _ _ S2 ltac:(lia)) as (v2 & V2 & L2).
      destruct (A5 ltac:(lia)) as (w1 & W1 & M1). destruct (B5 ltac:(lia)) as (w2 & W2 & M2).
      destruct (andthen_dec (omemeq (c_vertices c1) (c_vertices c2) (3 * c_nv c1)) (omemeq (c_ttv c1) (c_ttv c2) (children d * c_nt c1)) (c_vertices c1 = c_vertices c2) (c_ttv c1 = c_ttv c2)) as (r & E1 & E2).
      + eapply omemeq_full; eauto. lia.
      + intros _. eapply omemeq_full; eauto; [rewrite M1|rewrite M2, <- ET]; apply Z.mul_comm.
      + exists r. split; [exact E1|]. rewrite E2. split; [auto|intros H; apply H; lia].
    - exists true. split; [auto|]. split; [intros _ H; lia|auto]. }
  intros _. apply andthen_dec.
  { destruct d; cbn [is3]; [exists true; split; [auto|split; [discriminate|auto]]|]. specialize (EE eq_refl). destruct (0 <? c_ne c1) eqn:E.
    - destruct (A8 eq_refl) as (_ & A8'). destruct (B8 eq_refl) as (_ & B8'). destruct (A8' ltac:(lia)) as (L1 & _). destruct (B8' ltac:(lia)) as (L2 & _).
      destruct (memeq_full (c_tte c1) (c_tte c2) (12 * c_nt c1) ltac:(lia) ltac:(lia)) as (r & E1 & E2). exists r. split; [exact E1|]. rewrite E2. split; [auto|intros H; apply H; [auto|lia]].
    - exists true. split; [auto|]. split; [intros _ _ H; lia|auto]. }
  intros _. apply andthen_dec.
  { destruct (0 <? c_nc c1) eqn:E.
    - destruct (A10 ltac:(lia)) as (L1 & _). destruct (B10 ltac:(lia)) as (L2 & _).
      destruct (memeq_full (c_ttc c1) (c_ttc c2) (children d * c_nt c1)) as (r & E1 & E2); [rewrite L1; apply Z.mul_comm|rewrite L2, <- ET; apply Z.mul_comm|]. exists r. split; [exact E1|]. rewrite E2. split; [auto|intros H; apply H; lia].
    - exists true. split; [auto|]. split; [intros _ H; lia|auto]. }
  intros _. apply andthen_dec. { apply memeq_full; [rewrite A6; apply Z.mul_comm|rewrite B6, <- ET; apply Z.mul_comm]. }
  intros _. apply andthen_dec. { apply memeq_full; [rewrite A7; apply Z.mul_comm|rewrite B7, <- ET; apply Z.mul_comm]. }
  intros _. apply andthen_dec. { apply plain. rewrite andb_true_iff, Bool.eqb_true_iff, Z.eqb_eq. tauto. }
  intros (EN & EA). apply andthen_dec.
  { destruct (c_tta c1) as [a|] eqn:T1; destruct (c_tta c2) as [b|] eqn:T2; cbn [is_null] in *; try discriminate.
    - eapply omemeq_full; eauto; [apply (sz_attr _ _ S1); auto|rewrite ET, EA; apply (sz_attr _ _ S2); auto].
    - exists true. tauto. }
  intros _. apply andthen_dec.
  { destruct d; cbn [is3]; [exists true; split; [auto|split; [discriminate|auto]]|]. specialize (EE eq_refl).
    destruct (sz_edges _ _ S1 eq_refl) as (P1 & P2). destruct (sz_edges _ _ S2 eq_refl) as (Q1 & Q2). rewrite P1. cbn [with_].
    destruct (A8 eq_refl) as (L1 & _). destruct (B8 eq_refl) as (L2 & _).
    destruct (andthen_dec (memeq (c_eoff c1) (c_eoff c2) (c_ne c1 + 1)) (memeq (c_ett c1) (c_ett c2) (zlen (c_ett c1)) ;; memeq (c_ete c1) (c_ete c2) (zlen (c_ett c1))) (c_eoff c1 = c_eoff c2) (c_ett c1 = c_ett c2 /\ c_ete c1 = c_ete c2)) as (r & E1 & E2).
    - apply memeq_full; lia.
    - intros O. rewrite O, EE, Q1 in P1. apply some_eq in P1. apply andthen_dec; [apply memeq_full; lia|]. intros _. apply memeq_full; lia.
    - exists r. split; [exact E1|]. rewrite E2. tauto. }
  intros _. destruct (sz_corners _ _ S1) as (P1 & P2). destruct (sz_corners _ _ S2) as (Q1 & Q2). rewrite P1. cbn [with_].
  apply andthen_dec; [apply memeq_full; lia|]. intros O. rewrite O, EC, Q1 in P1. apply some_eq in P1.
  apply andthen_dec; [apply memeq_full; lia|]. intros _. apply memeq_full; lia.
Qed.

(** ** C73 *)

(** p4est_connectivity_is_equal reads inside the arrays and says yes exactly if all members are equal. *)
Theorem C73_is_equal : forall d c1 c2, sized d c1 -> sized d c2 -> tidy d c1 -> tidy d c2 ->
  exists r, conn_is_equal d c1 c2 = Some r /\ (r = true <-> c1 = c2).
Proof.
  intros d c1 c2 S1 S2 T1 T2. destruct (equal_spec d c1 c2 S1 S2) as (r & E & F). exists r. split; [exact E|]. rewrite F. split.
  - intros ((EV & ET & EE & EC) & V & X & K & TT & TF & (_ & AT) & TA & EA & CO & CT & CC).
    destruct (sz_alloc _ _ S1) as (A1 & A2 & A3 & A4 & _). 
    assert (VV : c_vertices c1 = c_vertices c2 /\ c_ttv c1 = c_ttv c2).
    { destruct (Z.eq_dec (c_nv c1) 0) as [Z0|Z0]; [|apply V; lia]. destruct (td_vertices _ _ T1 Z0) as (-> & ->). destruct (td_vertices _ _ T2 ltac:(lia)) as (-> & ->). auto. }
    assert (KK : c_ttc c1 = c_ttc c2).
    { destruct (Z.eq_dec (c_nc c1) 0) as [Z0|Z0]; [|apply K; lia]. rewrite (td_corners _ _ T1 Z0), (td_corners _ _ T2 ltac:(lia)). auto. }
    assert (XX : c_ne c1 = c_ne c2 /\ c_tte c1 = c_tte c2 /\ c_eoff c1 = c_eoff c2 /\ c_ett c1 = c_ett c2 /\ c_ete c1 = c_ete c2).
    { destruct d.
      - destruct (td_2d _ _ T1 eq_refl) as (-> & -> & -> & -> & ->). destruct (td_2d _ _ T2 eq_refl) as (-> & -> & -> & -> & ->). auto.
      - specialize (EE eq_refl). specialize (EA eq_refl). split; [exact EE|]. split; [|tauto].
        destruct (Z.eq_dec (c_ne c1) 0) as [Z0|Z0]; [|apply X; [auto|lia]]. rewrite (td_edges _ _ T1 eq_refl Z0), (td_edges _ _ T2 eq_refl ltac:(lia)). auto. }
    destruct VV as (V1 & V2). destruct XX as (X1 & X2 & X3 & X4 & X5). destruct c1, c2. cbn in *. subst. reflexivity.
  - intros ->. unfold equal_members. tauto.
Qed.
Print Assumptions C73_is_equal.

(** ** sorting makes lists comparable *)
(** what sc_array_sort promises *)
Definition sorts {A} (cmp : A -> A -> Z) (sort : list A -> list A) : Prop :=
  forall l, Permutation l (sort l) /\ StronglySorted (fun a b => cmp a b <= 0) (sort l).
Section Sorting.
  Variables (A : Type) (cmp : A -> A -> Z) (eqb : A -> A -> bool) (sort : list A -> list A).
  Hypothesis EQB : forall a b, eqb a b = true <-> a = b.
  Hypothesis ANTI : forall a b, cmp a b <= 0 -> cmp b a <= 0 -> a = b.
  Hypothesis SORT : sorts cmp sort.

  Lemma sorted_unique : forall l m, StronglySorted (fun a b => cmp a b <= 0) l -> StronglySorted (fun a b => cmp a b <= 0) m -> Permutation l m -> l = m.
  Proof.
    induction l as [|a l IH]; intros m SL SM P.
    - apply Permutation_nil in P. auto.
    - destruct m as [|b m]; [apply Permutation_sym, Permutation_nil in P; discriminate|].
      inversion SL as [|? ? SL' FL]. inversion SM as [|? ? SM' FM]. subst. rewrite Forall_forall in FL, FM.
      assert (a = b).
      { assert (Ia : In a (b :: m)) by (eapply Permutation_in; [exact P|left; auto]). assert (Ib : In b (a :: l)) by (eapply Permutation_in; [apply Permutation_sym; exact P|left; auto]).
        destruct Ia as [|Ia]; [auto|]. destruct Ib as [|Ib]; [auto|]. apply ANTI; auto. }
      subst b. f_equal. apply IH; auto. eapply Permutation_cons_inv; eauto.
  Qed.
  Lemma all_same_eq : forall l m, all_same eqb l m = true <-> l = m.
  Proof.
    induction l as [|a l IH]; intros [|b m]; cbn [all_same]; [tauto|split; discriminate|split; discriminate|].
    rewrite andb_true_iff, EQB, IH. split; [intros (-> & ->); auto|intros E; injection E as -> ->; auto].
  Qed.
  Lemma same_sorted_spec l m : exists r, same_sorted eqb sort (Some l) (Some m) = Some r /\ (r = true <-> Permutation l m).
  Proof.
    cbn [same_sorted]. eexists. split; [reflexivity|]. rewrite andb_true_iff, all_same_eq, Z.eqb_eq. destruct (SORT l) as (P & S). destruct (SORT m) as (Q & R). split.
    - intros (_ & E). rewrite P, E. symmetry. exact Q.
    - intros H. split; [unfold zlen; rewrite (Permutation_length H); auto|]. apply sorted_unique; auto. rewrite <- P, H. exact Q.
  Qed.
End Sorting.
Lemma corner_anti a b : corner_compare a b <= 0 -> corner_compare b a <= 0 -> a = b.
Proof. destruct a as (x & y), b as (u & v). unfold corner_compare. cbn [fst snd]. intros. assert (x = u) by (destruct (x =? u) eqn:E1, (u =? x) eqn:E2; cbn [negb] in *; lia). subst. rewrite Z.eqb_refl in *. cbn [negb] in *. f_equal. lia. Qed.
Lemma edge_anti a b : edge_compare a b <= 0 -> edge_compare b a <= 0 -> a = b.
Proof.
  destruct a as ((x & y) & z), b as ((u & v) & w). unfold edge_compare. intros. assert (x = u) by (destruct (x =? u) eqn:E1, (u =? x) eqn:E2; cbn [negb] in *; lia). subst. rewrite Z.eqb_refl in *. cbn [negb] in *.
  assert (y = v) by (destruct (y =? v) eqn:E1, (v =? y) eqn:E2; cbn [negb] in *; lia). subst. rewrite Z.eqb_refl in *. cbn [negb] in *. f_equal. lia.
Qed.
Lemma same_corner_eq a b : same_corner a b = true <-> a = b.
Proof. destruct a, b. unfold same_corner. cbn [fst snd]. rewrite andb_true_iff, !Z.eqb_eq. split; [intros (-> & ->); auto|intros E; injection E as -> ->; auto]. Qed.
Lemma same_edge_eq a b : same_edge a b = true <-> a = b.
Proof. destruct a as ((? & ?) & ?), b as ((? & ?) & ?). unfold same_edge. cbn [fst snd]. rewrite !andb_true_iff, !Z.eqb_eq. split; [intros ((-> & ->) & ->); auto|intros E; injection E as -> -> ->; auto]. Qed.

(** ** what the answer means *)

(** two tree corners carry the same number *)
Definition numbered_alike (d : dim) (c : conn) (x y : Z * Z) : Prop :=
  0 < c_nc c /\ exists ac, ac <> -1 /\ zget (c_ttc c) (children d * fst x + snd x) = Some ac /\ zget (c_ttc c) (children d * fst y + snd y) = Some ac.
Definition near (d : dim) (c : conn) (x y : Z * Z) : Prop :=
  x = y \/ across_face d c (fst x) (snd x) (fst y) (snd y) \/ across_edge d c (fst x) (snd x) (fst y) (snd y).
(** tree corners that meet: through a face, through an edge (3D), or by their number *)
Definition corners_meet (d : dim) (c : conn) (x y : Z * Z) : Prop := near d c x y \/ numbered_alike d c x y.
(** the same faces; the same edge neighbors; the same corners meet *)
Definition same_topology (d : dim) (c1 c2 : conn) : Prop :=
  c_nt c1 = c_nt c2 /\
  (forall t f, 0 <= t < c_nt c1 -> 0 <= f < faces d ->
     zget (c_ttt c1) (faces d * t + f) = zget (c_ttt c2) (faces d * t + f) /\ zget (c_ttf c1) (faces d * t + f) = zget (c_ttf c2) (faces d * t + f)) /\
  (d = D3 -> forall t e, 0 <= t < c_nt c1 -> 0 <= e < 12 ->
     exists l1 l2, find_edge_transform c1 t e = Some l1 /\ find_edge_transform c2 t e = Some l2 /\ Permutation l1 l2) /\
  (forall x y, corner_of d c1 x -> corner_of d c1 y -> corners_meet d c1 x y <-> corners_meet d c2 x y).

Lemma children_pos d : 0 < children d. Proof. destruct d; reflexivity. Qed.
Lemma faces_pos d : 0 < faces d. Proof. destruct d; reflexivity. Qed.

Lemma rows_eq S n (a b : list Z) : 0 < S -> 0 <= n -> zlen a = n * S -> zlen b = n * S ->
  (a = b <-> forall t k, 0 <= t < n -> 0 <= k < S -> zget a (S * t + k) = zget b (S * t + k)).
Proof.
  intros HS Hn LA LB. split; [intros ->; auto|]. intros H. apply JoinArray.ext; [lia|]. intros i Hi. rewrite LA in Hi.
  pose proof (Z.div_mod i S ltac:(lia)) as DM. pose proof (Z.mod_pos_bound i S HS) as MB.
  assert (0 <= i / S < n) by (split; [apply Z.div_pos; lia|apply Z.div_lt_upper_bound; lia]).
  specialize (H (i / S) (i mod S) ltac:(auto) ltac:(auto)). rewrite <- DM in H. exact H.
Qed.

Section Lists.
  Variables (d : dim) (c : conn).
  Hypothesis AL : allocated d c.
  Hypothesis V : conn_is_valid d c = Some true.

  Lemma edge_found t e : d = D3 -> 0 <= t < c_nt c -> 0 <= e < 12 -> exists l, find_edge_transform c t e = Some l.
  Proof.
    intros D Ht He. destruct (conn_valid_inv _ _ V) as (ne & nc & _ & _ & _ & _ & TV). destruct (valid_tree_inv _ _ _ _ _ (TV t Ht)) as (_ & _ & EV & _).
    destruct AL as (_ & _ & P & _). destruct (Z.eq_dec (c_ne c) 0) as [Z0|Z0].
    - exists []. unfold find_edge_transform. rewrite Z0. reflexivity.
    - specialize (EV D ltac:(lia) e He). unfold valid_edge in EV. destruct (find_edge_transform c t e); [eauto|discriminate].
  Qed.
  Lemma corner_listed x : corner_of d c x -> exists l, find_corner_transform d c (fst x) (snd x) = Some l /\ NoDup l /\
    (forall y, In y l -> corner_of d c y) /\ (forall y, In y l -> ~ near d c x y) /\ (forall y, corner_of d c y -> corners_meet d c x y <-> near d c x y \/ In y l).
  Proof.
    destruct x as (t & k). intros (Ht & Hk). cbn [fst snd] in *. pose proof AL as (_ & _ & PE & PC & _).
    assert (NO : find_corner_transform d c t k = Some [] -> (forall y, ~ numbered_alike d c (t, k) y) ->
      exists l, find_corner_transform d c t k = Some l /\ NoDup l /\ (forall y, In y l -> corner_of d c y) /\ (forall y, In y l -> ~ near d c (t, k) y) /\ (forall y, corner_of d c y -> corners_meet d c (t, k) y <-> near d c (t, k) y \/ In y l)).
    { intros F N. exists []. split; [exact F|]. split; [constructor|]. split; [intros y []|]. split; [intros y []|]. intros y _. unfold corners_meet. cbn [In]. specialize (N y). tauto. }
    destruct (Z.eq_dec (c_nc c) 0) as [Z0|Z0].
    { apply NO; [unfold find_corner_transform; rewrite Z0; reflexivity|]. intros y (H & _). lia. }
    destruct (conn_valid_inv _ _ V) as (ne & nc & _ & _ & _ & _ & TV). destruct (valid_tree_inv _ _ _ _ _ (TV t Ht)) as (_ & _ & _ & _ & KV). specialize (KV ltac:(lia) k Hk).
    destruct (valid_corner_true _ _ _ _ _ KV) as (ac & E & _ & _). replace (t * children d + k) with (children d * t + k) in E by lia.
    destruct (Z.eq_dec ac (-1)) as [Z1|Z1].
    { subst ac. apply NO; [unfold find_corner_transform; rewrite E; replace (c_nc c =? 0) with false by lia; reflexivity|]. intros y (_ & a & N & E1 & _). cbn [fst snd] in E1. rewrite E in E1. apply some_eq in E1. auto. }
    destruct (C48_corner_neighbors d c t k ac V Ht Hk ltac:(lia) PE E Z1) as (l & F & ND & SP). exists l. split; [exact F|]. split; [exact ND|].
    split; [intros (t' & k') I; apply SP in I as (R1 & R2 & _); split; auto|].
    assert (NEAR : forall t' k', near d c (t, k) (t', k') <-> (t' = t /\ k' = k) \/ across_face d c t k t' k' \/ across_edge d c t k t' k').
    { intros t' k'. unfold near. cbn [fst snd]. split; [intros [Q|Q]; [injection Q as <- <-; auto|auto]|intros [(-> & ->)|Q]; auto]. }
    split; [intros (t' & k') I; rewrite NEAR; apply SP in I; tauto|].
    intros (t' & k') (R1 & R2). cbn [fst snd] in *.
    assert (DEC : near d c (t, k) (t', k') \/ ~ near d c (t, k) (t', k')).
    { rewrite NEAR. unfold find_corner_transform in F. replace (c_nc c =? 0) with false in F by lia. rewrite E in F. replace (ac =? -1) with false in F by lia.
      destruct (zget (c_coff c) ac); [|discriminate]. destruct (zget (c_coff c) (ac + 1)); [|discriminate].
      destruct (corner_faces_distinct d c t k) as [dis0|] eqn:ED; [|discriminate]. destruct (if is3 d then corner_edges_distinct c t k dis0 else Some dis0) as [dis|] eqn:EE; [|discriminate].
      pose proof (edges_spec d c V t k _ _ EE PE t' k') as Q1. pose proof (distinct_spec d c V t k dis0 Ht Hk ED t' k') as Q2. destruct (in_dec pdec (t', k') dis); tauto. }
    unfold corners_meet. split.
    - intros [H|(_ & a & N & E1 & E2)]; [auto|]. cbn [fst snd] in *. rewrite E in E1. apply some_eq in E1. subst a. destruct DEC as [D|D]; [auto|]. right. apply SP. rewrite NEAR in D. tauto.
    - intros [H|I]; [auto|]. right. apply SP in I as (_ & _ & E2 & _). split; [lia|]. exists ac. auto.
  Qed.
End Lists.

Lemma face_same d c1 c2 : (forall t f, 0 <= t < c_nt c1 -> 0 <= f < faces d ->
     zget (c_ttt c1) (faces d * t + f) = zget (c_ttt c2) (faces d * t + f) /\ zget (c_ttf c1) (faces d * t + f) = zget (c_ttf c2) (faces d * t + f)) ->
  forall t k t' k', 0 <= t < c_nt c1 -> 0 <= k < children d -> across_face d c1 t k t' k' <-> across_face d c2 t k t' k'.
Proof.
  intros H t k t' k' Ht Hk. assert (R : forall i, 0 <= i < nd d -> 0 <= corner_faces d k i < faces d).
  { intros i Hi. apply (corner_faces_range d k i); auto. }
  unfold across_face. split; intros (i & f & code & Hi & -> & E1 & E2 & N & E3); exists i, (corner_faces d k i), code; (split; [auto|]); (split; [auto|]);
    destruct (H t (corner_faces d k i) Ht (R i Hi)) as (F1 & F2); rewrite ?F1, ?F2 in *; rewrite <- ?F1, <- ?F2 in *; auto.
Qed.

Lemma across_edge_perm d c1 c2 : 0 <= c_ne c2 -> (d = D3 -> forall t e, 0 <= t < c_nt c1 -> 0 <= e < 12 ->
     exists l1 l2, find_edge_transform c1 t e = Some l1 /\ find_edge_transform c2 t e = Some l2 /\ Permutation l1 l2) ->
  forall t k t' k', 0 <= t < c_nt c1 -> 0 <= k < children d -> across_edge d c1 t k t' k' -> across_edge d c2 t k t' k'.
Proof.
  intros PE H t k t' k' Ht Hk (D & P & i & e & ae & ets & ne & nf & Hi & -> & E1 & N & E2 & I & E3). subst d.
  destruct (H eq_refl t (corner_edges k i) Ht (corner_edges_range k i Hk Hi)) as (l1 & l2 & F1 & F2 & Q). rewrite E2 in F1. apply some_eq in F1. subst l1.
  pose proof (Permutation_in _ Q I) as I2.
  split; [auto|]. pose proof F2 as F2'. unfold find_edge_transform in F2'. destruct (c_ne c2 =? 0) eqn:Z0; [apply some_eq in F2'; subst l2; destruct I2|].
  destruct (zget (c_tte c2) (12 * t + corner_edges k i)) as [ae2|] eqn:G; [|discriminate]. destruct (ae2 =? -1) eqn:Z1; [apply some_eq in F2'; subst l2; destruct I2|]. clear F2'.
  split; [lia|]. exists i, (corner_edges k i), ae2, l2, ne, nf. split; [auto|]. split; [auto|]. split; [auto|]. split; [lia|]. auto.
Qed.
Lemma across_edge_same d c1 c2 : 0 <= c_ne c1 -> 0 <= c_ne c2 -> c_nt c1 = c_nt c2 -> (d = D3 -> forall t e, 0 <= t < c_nt c1 -> 0 <= e < 12 ->
     exists l1 l2, find_edge_transform c1 t e = Some l1 /\ find_edge_transform c2 t e = Some l2 /\ Permutation l1 l2) ->
  forall t k t' k', 0 <= t < c_nt c1 -> 0 <= k < children d -> across_edge d c1 t k t' k' <-> across_edge d c2 t k t' k'.
Proof.
  intros P1 P2 N H t k t' k' Ht Hk. split; eapply across_edge_perm; eauto.
  - intros D t0 e0 R0 F0. destruct (H D t0 e0 ltac:(lia) F0) as (l1 & l2 & F1 & F2 & Q). exists l2, l1. split; [auto|]. split; [auto|]. symmetry. exact Q.
  - lia.
Qed.

Section Answer.
  Variables (d : dim) (c1 c2 : conn).
  Hypothesis S1 : sized d c1.
  Hypothesis S2 : sized d c2.
  Hypothesis V1 : conn_is_valid d c1 = Some true.
  Hypothesis V2 : conn_is_valid d c2 = Some true.
  Notation AL1 := (sz_alloc _ _ S1).
  Notation AL2 := (sz_alloc _ _ S2).

  (** equal connectivities have the same topology *)
  Lemma equal_topology : equal_members d c1 c2 -> same_topology d c1 c2.
  Proof.
    intros ((EV & ET & EE & EC) & _ & X & K & TT & TF & _ & _ & EA & CO & CT & CC).
    destruct AL1 as (_ & _ & P1 & Q1 & _). destruct AL2 as (_ & _ & P2 & Q2 & _).
    assert (FE : d = D3 -> forall t e, find_edge_transform c2 t e = find_edge_transform c1 t e).
    { intros D t e. specialize (EE D). specialize (EA D). specialize (X D). destruct EA as (O & T & E). unfold find_edge_transform, edge_distinct. rewrite <- EE, <- O, <- T, <- E, <- TT, <- TF.
      destruct (c_ne c1 =? 0) eqn:Z0; [reflexivity|]. rewrite X by lia. reflexivity. }
    assert (ED : d = D3 -> forall t e, 0 <= t < c_nt c1 -> 0 <= e < 12 -> exists l1 l2, find_edge_transform c1 t e = Some l1 /\ find_edge_transform c2 t e = Some l2 /\ Permutation l1 l2).
    { intros D t e Ht He. destruct (edge_found d c1 AL1 V1 t e D Ht He) as (l & F). exists l, l. rewrite (FE D). auto. }
    split; [exact ET|]. split; [rewrite TT, TF; auto|]. split; [exact ED|].
    intros (t & k) (t' & k') (Ht & Hk) (Ht' & Hk'). unfold corners_meet, near, numbered_alike. cbn [fst snd] in *.
    rewrite (across_edge_same d c1 c2 P1 P2 ET ED t k t' k' Ht Hk). rewrite (face_same d c1 c2) by (auto; rewrite TT, TF; auto).
    rewrite <- EC. split; (intros [H|(P & H)]; [auto|]); right; (split; [exact P|]); [rewrite <- (K P)|rewrite (K P)]; exact H.
  Qed.

  Variables (sort_edges : list (Z * Z * Z) -> list (Z * Z * Z)) (sort_corners : list (Z * Z) -> list (Z * Z)).
  Hypothesis SE : sorts edge_compare sort_edges.
  Hypothesis SC : sorts corner_compare sort_corners.

  Lemma equivalent_spec : exists r, conn_is_equivalent sort_edges sort_corners d c1 c2 = Some r /\ (r = true <-> same_topology d c1 c2).
  Proof.
    unfold conn_is_equivalent. destruct (equal_spec d c1 c2 S1 S2) as (r & -> & R). destruct r.
    { exists true. split; [auto|]. split; [intros _; apply equal_topology; apply R; auto|auto]. }
    clear R. destruct AL1 as (_ & N1 & P1 & Q1 & _ & L1 & M1 & _). destruct AL2 as (_ & N2 & P2 & Q2 & _ & L2 & M2 & _).
    pose (CL := forall t, 0 <= t < 0 + Z.of_nat (Z.to_nat (c_nt c1)) -> forall k, 0 <= k < 0 + Z.of_nat (Z.to_nat (children d)) ->
      exists l1 l2, find_corner_transform d c1 t k = Some l1 /\ find_corner_transform d c2 t k = Some l2 /\ Permutation l1 l2).
    pose (EL := d = D3 -> forall t, 0 <= t < 0 + Z.of_nat (Z.to_nat (c_nt c1)) -> forall e, 0 <= e < 0 + Z.of_nat 12 ->
      exists l1 l2, find_edge_transform c1 t e = Some l1 /\ find_edge_transform c2 t e = Some l2 /\ Permutation l1 l2).
    assert (G : exists r, (Some (c_nt c1 =? c_nt c2) ;; memeq (c_ttt c1) (c_ttt c2) (faces d * c_nt c1) ;; memeq (c_ttf c1) (c_ttf c2) (faces d * c_nt c1) ;;
      (if is3 d then each (fun t => each (fun e => same_sorted same_edge sort_edges (find_edge_transform c1 t e) (find_edge_transform c2 t e)) 0 12) 0 (Z.to_nat (c_nt c1)) else Some true) ;;
      each (fun t => each (fun k => same_sorted same_corner sort_corners (find_corner_transform d c1 t k) (find_corner_transform d c2 t k)) 0 (Z.to_nat (children d))) 0 (Z.to_nat (c_nt c1))) = Some r /\
      (r = true <-> c_nt c1 = c_nt c2 /\ c_ttt c1 = c_ttt c2 /\ c_ttf c1 = c_ttf c2 /\ EL /\ CL)).
    { apply andthen_dec; [apply plain; lia|]. intros ET.
      apply andthen_dec; [apply memeq_full; [rewrite L1; apply Z.mul_comm|rewrite L2, <- ET; apply Z.mul_comm]|]. intros _.
      apply andthen_dec; [apply memeq_full; [rewrite M1; apply Z.mul_comm|rewrite M2, <- ET; apply Z.mul_comm]|]. intros _.
      apply andthen_dec.
      - unfold EL. destruct (is3 d) eqn:D; [|exists true; split; [auto|]; split; [intros _ ->; discriminate|auto]]. assert (D' : d = D3) by (destruct d; [discriminate|auto]).
        destruct (each_dec (fun t => each (fun e => same_sorted same_edge sort_edges (find_edge_transform c1 t e) (find_edge_transform c2 t e)) 0 12)
          (fun t => forall e, 0 <= e < 0 + Z.of_nat 12 -> exists l1 l2, find_edge_transform c1 t e = Some l1 /\ find_edge_transform c2 t e = Some l2 /\ Permutation l1 l2) (Z.to_nat (c_nt c1)) 0) as (r & E & F); [|exists r; split; [exact E|]; rewrite F; tauto].
        intros t Ht. apply each_dec. intros e He. destruct (edge_found d c1 AL1 V1 t e D' ltac:(lia) ltac:(lia)) as (l1 & F1). destruct (edge_found d c2 AL2 V2 t e D' ltac:(lia) ltac:(lia)) as (l2 & F2). rewrite F1, F2.
        destruct (same_sorted_spec _ edge_compare same_edge sort_edges same_edge_eq edge_anti SE l1 l2) as (r & E & F). exists r. split; [exact E|]. rewrite F. split; [intros; exists l1, l2; auto|].
        intros (a & b & A & B & P). apply some_eq in A, B. subst. exact P.
      - intros _. unfold CL. apply each_dec. intros t Ht. apply each_dec. intros k Hk.
        destruct (corner_listed d c1 AL1 V1 (t, k)) as (l1 & F1 & _); [split; cbn [fst snd]; lia|]. destruct (corner_listed d c2 AL2 V2 (t, k)) as (l2 & F2 & _); [split; cbn [fst snd]; lia|]. cbn [fst snd] in F1, F2. rewrite F1, F2.
        destruct (same_sorted_spec _ corner_compare same_corner sort_corners same_corner_eq corner_anti SC l1 l2) as (r & E & F). exists r. split; [exact E|]. rewrite F. split; [intros; exists l1, l2; auto|].
        intros (a & b & A & B & P). apply some_eq in A, B. subst. exact P. }
    destruct G as (r & -> & R). exists r. split; [auto|]. rewrite R. clear r R. unfold same_topology.
    assert (Z12 : Z.of_nat 12 = 12) by reflexivity. pose proof (children_pos d) as PK.
    assert (FS : c_nt c1 = c_nt c2 -> (c_ttt c1 = c_ttt c2 /\ c_ttf c1 = c_ttf c2 <-> forall t f, 0 <= t < c_nt c1 -> 0 <= f < faces d ->
     zget (c_ttt c1) (faces d * t + f) = zget (c_ttt c2) (faces d * t + f) /\ zget (c_ttf c1) (faces d * t + f) = zget (c_ttf c2) (faces d * t + f))).
    { intros ET. rewrite (rows_eq (faces d) (c_nt c1) (c_ttt c1) (c_ttt c2)), (rows_eq (faces d) (c_nt c1) (c_ttf c1) (c_ttf c2)) by first [apply faces_pos|assumption|rewrite ET; assumption].
      split; [intros (A & B) t f Ht Hf; split; auto|]. intros H. split; intros t f Ht Hf; apply H; auto. }
    assert (ELS : EL <-> (d = D3 -> forall t e, 0 <= t < c_nt c1 -> 0 <= e < 12 -> exists l1 l2, find_edge_transform c1 t e = Some l1 /\ find_edge_transform c2 t e = Some l2 /\ Permutation l1 l2)).
    { unfold EL. split; [intros H D t e Ht He; apply H; auto; lia|intros H D t Ht e He; apply H; auto; lia]. }
    rewrite ELS. clear ELS.
    assert (CLS : c_nt c1 = c_nt c2 -> (forall t f, 0 <= t < c_nt c1 -> 0 <= f < faces d ->
       zget (c_ttt c1) (faces d * t + f) = zget (c_ttt c2) (faces d * t + f) /\ zget (c_ttf c1) (faces d * t + f) = zget (c_ttf c2) (faces d * t + f)) ->
      (d = D3 -> forall t e, 0 <= t < c_nt c1 -> 0 <= e < 12 -> exists l1 l2, find_edge_transform c1 t e = Some l1 /\ find_edge_transform c2 t e = Some l2 /\ Permutation l1 l2) ->
      (CL <-> forall x y, corner_of d c1 x -> corner_of d c1 y -> corners_meet d c1 x y <-> corners_meet d c2 x y)).
    { intros ET FF EF.
      assert (CO : forall x, corner_of d c1 x <-> corner_of d c2 x) by (intros x; unfold corner_of; rewrite ET; tauto).
      assert (NR : forall x y, corner_of d c1 x -> near d c1 x y <-> near d c2 x y).
      { intros (t & k) (t' & k') (Ht & Hk). unfold near. cbn [fst snd] in *. rewrite (across_edge_same d c1 c2 P1 P2 ET EF t k t' k' Ht Hk), (face_same d c1 c2 FF) by auto. tauto. }
      split.
      - intros H x y Ix Iy. destruct (corner_listed d c1 AL1 V1 x Ix) as (l1 & F1 & _ & _ & _ & K1). destruct (corner_listed d c2 AL2 V2 x (proj1 (CO x) Ix)) as (l2 & F2 & _ & _ & _ & K2).
        destruct Ix as (Ht & Hk). destruct (H (fst x) ltac:(lia) (snd x) ltac:(lia)) as (a & b & A & B & P). rewrite F1 in A. rewrite F2 in B. apply some_eq in A, B. subst a b.
        rewrite K1, K2 by (auto; apply CO; auto). rewrite (NR x y (conj Ht Hk)). assert (In y l1 <-> In y l2) by (split; apply Permutation_in; [exact P|symmetry; exact P]). tauto.
      - intros H t Ht k Hk. assert (Ix : corner_of d c1 (t, k)) by (split; cbn [fst snd]; lia).
        destruct (corner_listed d c1 AL1 V1 (t, k) Ix) as (l1 & F1 & D1 & R1 & A1 & K1). destruct (corner_listed d c2 AL2 V2 (t, k) (proj1 (CO _) Ix)) as (l2 & F2 & D2' & R2 & A2 & K2).
        exists l1, l2. split; [exact F1|]. split; [exact F2|]. apply NoDup_Permutation; auto. intros y. split; intros I.
        + assert (Iy : corner_of d c1 y) by auto. assert (M : corners_meet d c2 (t, k) y) by (apply H; auto; apply K1; auto). apply K2 in M as [M|M]; [|auto|apply CO; auto].
          exfalso. apply (A1 y I). apply NR; auto.
        + assert (Iy : corner_of d c1 y) by (apply CO; auto). assert (M : corners_meet d c1 (t, k) y) by (apply H; auto; apply K2; auto). apply K1 in M as [M|M]; [|auto|auto].
          exfalso. apply (A2 y I). apply NR; auto. }
    split.
    - intros (ET & T1 & T2 & E & K). split; [auto|]. assert (FF := proj1 (FS ET) (conj T1 T2)). split; [exact FF|]. split; [exact E|]. apply (proj1 (CLS ET FF E)). exact K.
    - intros (ET & FF & E & K). split; [auto|]. destruct (proj2 (FS ET) FF) as (T1 & T2). split; [auto|]. split; [auto|]. split; [auto|]. apply (proj2 (CLS ET FF E)). exact K.
  Qed.
End Answer.

(** p4est_connectivity_is_equivalent, called with two valid connectivities, says yes exactly if they have
    the same number of trees, the same neighbors across faces and edges, and the same tree corners meet.
    The numbers of corners and edges, vertices and attributes do not matter. *)
Theorem C73_is_equivalent : forall sort_edges sort_corners d c1 c2, sorts edge_compare sort_edges -> sorts corner_compare sort_corners ->
  sized d c1 -> sized d c2 -> conn_is_valid d c1 = Some true -> conn_is_valid d c2 = Some true ->
  exists r, conn_is_equivalent sort_edges sort_corners d c1 c2 = Some r /\ (r = true <-> same_topology d c1 c2).
Proof. intros. apply equivalent_spec; auto. Qed.
Print Assumptions C73_is_equivalent.

(** It is an equivalence relation. *)
Lemma topology_sym d c1 c2 : same_topology d c1 c2 -> same_topology d c2 c1.
Proof.
  intros (N & F & E & M). split; [auto|]. split; [intros t f Ht Hf; destruct (F t f) as (A & B); [lia|auto|auto]|]. split.
  - intros D t e Ht He. destruct (E D t e ltac:(lia) He) as (l1 & l2 & A & B & P). exists l2, l1. split; [auto|]. split; [auto|]. symmetry. exact P.
  - intros x y Ix Iy. symmetry. apply M; unfold corner_of in *; lia.
Qed.
Lemma topology_trans d c1 c2 c3 : same_topology d c1 c2 -> same_topology d c2 c3 -> same_topology d c1 c3.
Proof.
  intros (N & F & E & M) (N' & F' & E' & M'). split; [lia|]. split; [|split].
  - intros t f Ht Hf. destruct (F t f Ht Hf) as (A & B). destruct (F' t f ltac:(lia) Hf) as (A' & B'). split; congruence.
  - intros D t e Ht He. destruct (E D t e Ht He) as (l1 & l2 & A & B & P). destruct (E' D t e ltac:(lia) He) as (l2' & l3 & A' & B' & P'). rewrite B in A'. apply some_eq in A'. subst l2'.
    exists l1, l3. split; [auto|]. split; [auto|]. rewrite P. exact P'.
  - intros x y Ix Iy. rewrite M by auto. apply M'; unfold corner_of in *; lia.
Qed.
Theorem C73_equivalence : forall sort_edges sort_corners d, sorts edge_compare sort_edges -> sorts corner_compare sort_corners ->
  let ok c := sized d c /\ conn_is_valid d c = Some true in
  let eqv := conn_is_equivalent sort_edges sort_corners d in
  (forall c, ok c -> eqv c c = Some true) /\
  (forall c1 c2, ok c1 -> ok c2 -> eqv c1 c2 = eqv c2 c1) /\
  (forall c1 c2 c3, ok c1 -> ok c2 -> ok c3 -> eqv c1 c2 = Some true -> eqv c2 c3 = Some true -> eqv c1 c3 = Some true) /\
  (forall c1 c2, ok c1 -> ok c2 -> conn_is_equal d c1 c2 = Some true -> eqv c1 c2 = Some true).
Proof.
  intros se sc d SE SC ok eqv.
  assert (G : forall c1 c2, ok c1 -> ok c2 -> exists r, eqv c1 c2 = Some r /\ (r = true <-> same_topology d c1 c2)) by (intros c1 c2 (A & B) (A' & B'); apply C73_is_equivalent; auto).
  split; [|split; [|split]].
  - intros c (A & B). destruct (equal_spec d c c A A) as (r & E & F). unfold eqv, conn_is_equivalent. rewrite E. replace r with true; [reflexivity|]. symmetry. apply F. unfold equal_members. tauto.
  - intros c1 c2 O1 O2. destruct (G c1 c2 O1 O2) as (r & -> & R). destruct (G c2 c1 O2 O1) as (r' & -> & R'). f_equal.
    assert (r = true <-> r' = true) by (rewrite R, R'; split; apply topology_sym). destruct r, r'; intuition congruence.
  - intros c1 c2 c3 O1 O2 O3 E1 E2. destruct (G c1 c2 O1 O2) as (r & F1 & R1). destruct (G c2 c3 O2 O3) as (r2 & F2 & R2). destruct (G c1 c3 O1 O3) as (r3 & -> & R3).
    rewrite E1 in F1. rewrite E2 in F2. apply some_eq in F1, F2. subst. f_equal. apply R3. eapply topology_trans; [apply R1; auto|apply R2; auto].
  - intros c1 c2 _ _ E. unfold eqv, conn_is_equivalent. rewrite E. reflexivity.
Qed.
Print Assumptions C73_equivalence.

(** ** examples *)
(** a sort *)
Fixpoint insert {A} (cmp : A -> A -> Z) (a : A) (l : list A) : list A :=
  match l with [] => [a] | b :: l' => if cmp a b <=? 0 then a :: l else b :: insert cmp a l' end.
Definition isort {A} (cmp : A -> A -> Z) (l : list A) : list A := fold_right (insert cmp) [] l.
Lemma isort_sorts {A} (cmp : A -> A -> Z) : (forall a b, cmp a b <= 0 \/ cmp b a <= 0) -> (forall a b c, cmp a b <= 0 -> cmp b c <= 0 -> cmp a c <= 0) -> sorts cmp (isort cmp).
Proof.
  intros TOT TR l. induction l as [|a l (P & S)]; cbn [isort fold_right]; [split; constructor|]. fold (isort cmp l). remember (isort cmp l) as m. clear Heqm.
  assert (PI : forall a m, Permutation (a :: m) (insert cmp a m)).
  { intros x r. induction r as [|b r IH]; cbn [insert]; [auto|]. destruct (cmp x b <=? 0); [auto|]. rewrite perm_swap. constructor. exact IH. }
  split; [rewrite <- PI; constructor; exact P|]. clear P. induction S as [|b m S IH F]; cbn [insert]; [constructor; constructor|].
  destruct (cmp a b <=? 0) eqn:E.
  - constructor; [constructor; auto|]. constructor; [lia|]. rewrite Forall_forall in *. intros x Ix. apply (TR a b x); [lia|auto].
  - constructor; [exact IH|]. apply Forall_forall. intros x Ix. apply (Permutation_in _ (Permutation_sym (PI a m))) in Ix. destruct Ix as [<-|Ix]; [destruct (TOT a b); [lia|auto]|]. rewrite Forall_forall in F. auto.
Qed.
Example C73_sort_corners : sorts corner_compare (isort corner_compare).
Proof.
  apply isort_sorts.
  - intros (a & b) (c & e). unfold corner_compare. cbn [fst snd]. destruct (a =? c) eqn:E1, (c =? a) eqn:E2; cbn [negb]; lia.
  - intros (a & b) (c & e) (f & g). unfold corner_compare. cbn [fst snd]. destruct (a =? c) eqn:E1, (c =? f) eqn:E2, (a =? f) eqn:E3; cbn [negb]; lia.
Qed.
Example C73_sort_edges : sorts edge_compare (isort edge_compare).
Proof.
  apply isort_sorts.
  - intros ((a & b) & x) ((c & e) & y). unfold edge_compare. destruct (a =? c) eqn:E1, (c =? a) eqn:E2, (b =? e) eqn:E3, (e =? b) eqn:E4; cbn [negb]; lia.
  - intros ((a & b) & x) ((c & e) & y) ((f & g) & z). unfold edge_compare. destruct (a =? c) eqn:E1, (c =? f) eqn:E2, (a =? f) eqn:E3, (b =? e) eqn:E4, (e =? g) eqn:E5, (b =? g) eqn:E6; cbn [negb]; lia.
Qed.
Definition equivalent := conn_is_equivalent (isort edge_compare) (isort corner_compare).
(** four squares joined in two orders: the corners get other numbers, and the answer is yes *)
Definition four_xy : conn := Eval vm_compute in got (match join_faces D2 (isolated D2 4) 0 1 1 0 0 with Some a => join_faces D2 a 2 3 1 0 1 | None => None end).
Definition four_yx : conn := Eval vm_compute in got (match join_faces D2 (isolated D2 4) 2 3 1 0 1 with Some a => join_faces D2 a 0 1 1 0 0 | None => None end).
Example C73_orders : conn_is_equal D2 four_xy four_yx = Some false /\ equivalent D2 four_xy four_yx = Some true /\ c_nc four_xy = 8.
Proof. repeat split; vm_compute; reflexivity. Qed.
(** another orientation, another topology *)
Definition four_flip : conn := Eval vm_compute in got (match join_faces D2 (isolated D2 4) 0 1 1 0 1 with Some a => join_faces D2 a 2 3 1 0 1 | None => None end).
Example C73_flipped : conn_is_valid D2 four_flip = Some true /\ equivalent D2 four_xy four_flip = Some false.
Proof. repeat split; vm_compute; reflexivity. Qed.
(** the same faces, but in one of them two squares also meet at a corner *)
Definition at_corner : conn := Eval vm_compute in
  set_corners (set_edges (isolated D2 2) 0 [] [] [] []) 1 [-1; -1; -1; 0; 0; -1; -1; -1] [0; 2] [0; 1] [3; 0].
Example C73_at_corner : conn_is_valid D2 at_corner = Some true /\ equivalent D2 at_corner (isolated D2 2) = Some false /\ equivalent D2 at_corner at_corner = Some true.
Proof. repeat split; vm_compute; reflexivity. Qed.
Lemma sized_ok d c : allocated d c -> c_nv c = 0 -> c_tta c = None ->
  (d = D3 -> zget (c_eoff c) (c_ne c) = Some (zlen (c_ett c)) /\ zlen (c_ete c) = zlen (c_ett c)) ->
  zget (c_coff c) (c_nc c) = Some (zlen (c_ctt c)) /\ zlen (c_ctc c) = zlen (c_ctt c) -> sized d c.
Proof. intros A B C E F. constructor; auto; [intros H; lia|intros a H; congruence]. Qed.
Example C73_sized_2d : sized D2 four_xy /\ sized D2 at_corner /\ tidy D2 at_corner.
Proof.
  split; [|split].
  - apply sized_ok; try reflexivity; [unfold allocated; cbn; repeat split; try lia; discriminate|discriminate|split; reflexivity].
  - apply sized_ok; try reflexivity; [unfold allocated; cbn; repeat split; try lia; discriminate|discriminate|split; reflexivity].
  - constructor; cbn; intros; try discriminate; auto 10.
Qed.
Example C73_cubes : sized D3 cubes2 /\ conn_is_valid D3 cubes2 = Some true /\ tidy D3 cubes2 /\ 0 < c_ne cubes2 /\
  equivalent D3 cubes2 cubes2 = Some true /\ equivalent D3 cubes2 (isolated D3 3) = Some false.
Proof.
  split; [apply sized_ok; try reflexivity; [unfold allocated; cbn; repeat split; try lia; discriminate|intros _; split; reflexivity|split; reflexivity]|].
  split; [vm_compute; reflexivity|]. split; [constructor; cbn; intros; try discriminate; auto 10|]. split; [reflexivity|]. split; vm_compute; reflexivity.
Qed.
