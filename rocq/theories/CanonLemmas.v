(** * Lemmas about neighbor transforms *)

From Coq Require Import ZArith List Bool Lia ZifyBool.
From Verif Require Import Quad Spec Neighbor Transform PropertiesTransform Partition Conn ConnLemmas ConnBounds Canon.
Import ListNotations.
Open Scope Z_scope.

(** ** Where a point of a tree lies *)

(** the coordinate of direction i on an interface: None if it is free, Some b if it is fixed at 0
    (b false) or at ROOT_LEN (b true) *)
Definition at_axis (ty : ctype) (index i : Z) : option bool :=
  match ty with
  | CSelf => None
  | CFace => if i =? index / 2 then Some (Z.odd index) else None
  | CEdge => if i =? index / 4 then None
             else Some (Z.testbit index (if i =? (if index / 4 =? 0 then 1 else 0) then 0 else 1))
  | CCorner => Some (Z.testbit index i)
  end.
Definition side (b : bool) : Z := if b then ROOT_LEN else 0.
Definition flat (d : dim) (p : vec) : Prop := d = D2 -> vget p 2 = 0.
(** the point is in the closed tree *)
Definition closed (d : dim) (p : vec) : Prop := flat d p /\ forall i, 0 <= i < nd d -> 0 <= vget p i <= ROOT_LEN.
(** the point lies on the closed interface (the tree itself, a face, an edge, a corner) *)
Definition on (d : dim) (ty : ctype) (index : Z) (p : vec) : Prop :=
  flat d p /\ forall i, 0 <= i < nd d ->
  match at_axis ty index i with None => 0 <= vget p i <= ROOT_LEN | Some b => vget p i = side b end.
(** it lies on the interface, and not on its boundary *)
Definition lies (d : dim) (ty : ctype) (index : Z) (p : vec) : Prop :=
  flat d p /\ forall i, 0 <= i < nd d ->
  match at_axis ty index i with None => 0 < vget p i < ROOT_LEN | Some b => vget p i = side b end.
(** the numbers of the interfaces *)
Definition n_index (d : dim) (ty : ctype) : Z :=
  match ty with CSelf => 1 | CFace => faces d | CEdge => if is3 d then 12 else 0 | CCorner => children d end.

Lemma lies_on d ty k p : lies d ty k p -> on d ty k p.
Proof. intros (A & B). split; [auto|]. intros i Hi. specialize (B i Hi). destruct (at_axis ty k i); [auto|lia]. Qed.
Lemma on_closed d ty k p : on d ty k p -> closed d p.
Proof.
  intros (A & B). split; [auto|]. intros i Hi. specialize (B i Hi). destruct (at_axis ty k i) as [[|]|]; cbn [side] in B; change ROOT_LEN with (2 ^ 30) in *; lia.
Qed.

(** ** The general form of a neighbor transform *)

Definition exact (nt : ntrans) (p : vec) (i : Z) : Z :=
  vget (n_sign nt) i * (vget p (vget (n_perm nt) i) - vget (n_oself nt) (vget (n_perm nt) i)) + vget (n_oneigh nt) i.
Definition perms (d : dim) : list vec :=
  match d with D2 => [(0, 1, 0); (1, 0, 0); (0, 1, 2)] | D3 => [(0, 1, 2); (0, 2, 1); (1, 0, 2); (1, 2, 0); (2, 0, 1); (2, 1, 0)] end.
Definition veqb (a b : vec) : bool := (vget a 0 =? vget b 0) && (vget a 1 =? vget b 1) && (vget a 2 =? vget b 2).
Definition nt_ok (d : dim) (nt : ntrans) : bool :=
  existsb (veqb (n_perm nt)) (perms d) &&
  forallb (fun i =>
    let j := vget (n_perm nt) i in
    let s := vget (n_sign nt) i in
    ((s =? 1) || (s =? -1)) && (0 <=? vget (n_oself nt) j) && (vget (n_oself nt) j <=? ROOT_LEN) &&
    (0 <=? vget (n_oneigh nt) i) && (vget (n_oneigh nt) i <=? ROOT_LEN) &&
    match at_axis (n_type nt) (n_self nt) j, at_axis (n_type nt) (n_neigh nt) i with
    | None, None => ((2 * vget (n_oself nt) j =? ROOT_LEN) && (2 * vget (n_oneigh nt) i =? ROOT_LEN)) ||
                    ((s =? 1) && (vget (n_oself nt) j =? vget (n_oneigh nt) i))
    | Some b, Some b' => (vget (n_oself nt) j =? side b) && (vget (n_oneigh nt) i =? side b') && (s =? if Bool.eqb b b' then -1 else 1)
    | _, _ => false
    end) (axes d).

Lemma axes_in d i : In i (axes d) <-> 0 <= i < nd d.
Proof. destruct d; cbn; lia. Qed.
Lemma forward_get d nt p i : 0 <= i < nd d -> vget (nt_forward d nt p) i = i32 (exact nt p i).
Proof.
  intros Hi. unfold nt_forward, exact. cbv zeta.
  destruct d; cbn in Hi.
  - assert (H : i = 0 \/ i = 1) by lia. destruct H as [->| ->]; reflexivity.
  - assert (H : i = 0 \/ i = 1 \/ i = 2) by lia. destruct H as [->|[->| ->]]; reflexivity.
Qed.
Lemma forward_flat d nt p : flat d (nt_forward d nt p).
Proof. intros ->. reflexivity. Qed.
Lemma vget_ext d p q : flat d p -> flat d q -> (forall i, 0 <= i < nd d -> vget p i = vget q i) -> p = q.
Proof.
  intros A B H. destruct p as [[x y] z], q as [[a b] c]. pose proof (H 0) as H0. pose proof (H 1) as H1. pose proof (H 2) as H2.
  unfold flat in A, B. destruct d; cbn in *.
  - rewrite A, B, H0, H1 by (auto; lia). auto.
  - rewrite H0, H1, H2 by lia. auto.
Qed.

Lemma nt_ok_perm d nt : nt_ok d nt = true -> existsb (veqb (n_perm nt)) (perms d) = true.
Proof. intros H. apply andb_true_iff in H. tauto. Qed.
Ltac perm_cases nt H :=
  let P := fresh in pose proof (nt_ok_perm _ _ H) as P; apply existsb_exists in P; destruct P as (? & P & ?);
  destruct (n_perm nt) as [[? ?] ?].
Lemma perm_axis d nt i : nt_ok d nt = true -> 0 <= i < nd d -> 0 <= vget (n_perm nt) i < nd d.
Proof.
  intros H Hi. pose proof (nt_ok_perm _ _ H) as P. apply existsb_exists in P. destruct P as (v & I & E).
  unfold veqb in E. assert (E0 : vget (n_perm nt) i = vget v i).
  { destruct (n_perm nt) as [[a b] c], v as [[a' b'] c']. cbn in E. unfold vget. destruct (i =? 0); [lia|]. destruct (i =? 1); lia. }
  rewrite E0. clear - I Hi. destruct d; cbn [perms In nd] in I, Hi |- *.
  - assert (H : i = 0 \/ i = 1) by lia. destruct I as [<-|[<-|[<-|[]]]], H as [->| ->]; cbn; lia.
  - assert (H : i = 0 \/ i = 1 \/ i = 2) by lia. destruct I as [<-|[<-|[<-|[<-|[<-|[<-|[]]]]]]], H as [->|[->| ->]]; cbn; lia.
Qed.
(** the inverse permutation *)
Lemma perm_inv d nt : nt_ok d nt = true -> forall j, 0 <= j < nd d -> exists i, 0 <= i < nd d /\ vget (n_perm nt) i = j.
Proof.
  intros H j Hj. pose proof (nt_ok_perm _ _ H) as P. apply existsb_exists in P. destruct P as (v & I & E).
  unfold veqb in E. assert (E0 : forall i, vget (n_perm nt) i = vget v i).
  { intros i. destruct (n_perm nt) as [[a b] c], v as [[a' b'] c']. cbn in E. unfold vget. destruct (i =? 0); [lia|]. destruct (i =? 1); lia. }
  assert (Q : exists i, 0 <= i < nd d /\ vget v i = j).
  { clear - I Hj. destruct d; cbn [perms In nd] in *.
    - assert (H : j = 0 \/ j = 1) by lia.
      destruct I as [<-|[<-|[<-|[]]]], H as [->| ->]; ((exists 0; split; [lia|reflexivity]) || (exists 1; split; [lia|reflexivity])).
    - assert (H : j = 0 \/ j = 1 \/ j = 2) by lia.
      destruct I as [<-|[<-|[<-|[<-|[<-|[<-|[]]]]]]], H as [->|[->| ->]];
      ((exists 0; split; [lia|reflexivity]) || (exists 1; split; [lia|reflexivity]) || (exists 2; split; [lia|reflexivity])). }
  destruct Q as (i & Hi & E1). exists i. split; [auto|]. rewrite E0. auto.
Qed.
Lemma reverse_get d nt p i : nt_ok d nt = true -> 0 <= i < nd d ->
  let j := vget (n_perm nt) i in
  vget (nt_reverse d nt p) j = i32 (vget (n_sign nt) i * (vget p i - vget (n_oneigh nt) i) + vget (n_oself nt) j).
Proof.
  intros H Hi. pose proof (nt_ok_perm _ _ H) as P. apply existsb_exists in P. destruct P as (v & I & E). clear H.
  unfold nt_reverse. cbv zeta.
  assert (V : n_perm nt = v).
  { unfold veqb in E. destruct (n_perm nt) as [[a b] c], v as [[a' b'] c']. cbn in E. f_equal; [f_equal|]; lia. }
  rewrite V. clear V E. destruct d; cbn [perms In nd] in *.
  - assert (H : i = 0 \/ i = 1) by lia. destruct I as [<-|[<-|[<-|[]]]], H as [->| ->]; reflexivity.
  - assert (H : i = 0 \/ i = 1 \/ i = 2) by lia.
    destruct I as [<-|[<-|[<-|[<-|[<-|[<-|[]]]]]]], H as [->|[->| ->]]; reflexivity.
Qed.
Lemma reverse_flat d nt p : nt_ok d nt = true -> flat d (nt_reverse d nt p).
Proof.
  intros H ->. pose proof (nt_ok_perm _ _ H) as P. apply existsb_exists in P. destruct P as (v & I & E). clear H.
  assert (V : n_perm nt = v).
  { unfold veqb in E. destruct (n_perm nt) as [[a b] c], v as [[a' b'] c']. cbn in E. f_equal; [f_equal|]; lia. }
  unfold nt_reverse. rewrite V. cbn [perms In] in I. destruct I as [<-|[<-|[<-|[]]]]; reflexivity.
Qed.

(** the entries *)
Lemma nt_ok_entry d nt i : nt_ok d nt = true -> 0 <= i < nd d ->
  let j := vget (n_perm nt) i in
  let s := vget (n_sign nt) i in
  (s = 1 \/ s = -1) /\ 0 <= vget (n_oself nt) j <= ROOT_LEN /\ 0 <= vget (n_oneigh nt) i <= ROOT_LEN /\
  ((at_axis (n_type nt) (n_self nt) j = None /\ at_axis (n_type nt) (n_neigh nt) i = None /\
    ((2 * vget (n_oself nt) j = ROOT_LEN /\ 2 * vget (n_oneigh nt) i = ROOT_LEN) \/ (s = 1 /\ vget (n_oself nt) j = vget (n_oneigh nt) i))) \/
   exists b b', at_axis (n_type nt) (n_self nt) j = Some b /\ at_axis (n_type nt) (n_neigh nt) i = Some b' /\
     vget (n_oself nt) j = side b /\ vget (n_oneigh nt) i = side b' /\ s = if Bool.eqb b b' then -1 else 1).
Proof.
  intros H Hi j s. apply andb_true_iff in H as (_ & H). rewrite forallb_forall in H. specialize (H i (proj2 (axes_in d i) Hi)).
  cbv zeta in H. fold j s in H. rewrite !andb_true_iff in H. destruct H as (((((H1 & H2) & H3) & H4) & H5) & H6).
  split; [lia|]. split; [lia|]. split; [lia|].
  destruct (at_axis (n_type nt) (n_self nt) j) as [b|] eqn:E1, (at_axis (n_type nt) (n_neigh nt) i) as [b'|] eqn:E2; try discriminate.
  - right. exists b, b'. rewrite !andb_true_iff in H6. repeat (split; [auto; lia|]). lia.
  - left. repeat (split; [auto|]). lia.
Qed.

Lemma exact_inv s a o o' : s = 1 \/ s = -1 -> s * ((s * (a - o) + o') - o') + o = a.
Proof. intros [-> | ->]; lia. Qed.

Definition fits (d : dim) (nt : ntrans) (p : vec) : Prop := forall i, 0 <= i < nd d -> - 2 ^ 31 <= exact nt p i < 2 ^ 31.
Definition int32s (d : dim) (p : vec) : Prop := flat d p /\ forall i, 0 <= i < nd d -> - 2 ^ 31 <= vget p i < 2 ^ 31.
Lemma closed_int32 d p : closed d p -> int32s d p.
Proof. intros (A & B). split; [auto|]. intros i Hi. specialize (B i Hi). change ROOT_LEN with (2 ^ 30) in B. lia. Qed.

Lemma roundtrip d nt p : nt_ok d nt = true -> int32s d p -> fits d nt p -> nt_reverse d nt (nt_forward d nt p) = p.
Proof.
  intros H (F & B) FI. apply (vget_ext d); [apply reverse_flat; auto|auto|]. intros j Hj.
  destruct (perm_inv _ _ H j Hj) as (i & Hi & Ej). pose proof (reverse_get d nt (nt_forward d nt p) i H Hi) as R. cbv zeta in R.
  rewrite Ej in R. rewrite R, forward_get, (i32_id (exact nt p i)) by auto. unfold exact. rewrite Ej.
  destruct (nt_ok_entry d nt i H Hi) as (S1 & _). rewrite exact_inv by auto. apply i32_id. auto.
Qed.

Definition fits_back (d : dim) (nt : ntrans) (p : vec) : Prop :=
  forall i, 0 <= i < nd d -> - 2 ^ 31 <= vget (n_sign nt) i * (vget p i - vget (n_oneigh nt) i) + vget (n_oself nt) (vget (n_perm nt) i) < 2 ^ 31.
Lemma roundtrip_back d nt p : nt_ok d nt = true -> int32s d p -> fits_back d nt p -> nt_forward d nt (nt_reverse d nt p) = p.
Proof.
  intros H (F & B) FI. apply (vget_ext d); [apply forward_flat|auto|]. intros i Hi.
  rewrite forward_get by auto. unfold exact. pose proof (reverse_get d nt p i H Hi) as R. cbv zeta in R.
  pose proof (i32_id _ (FI i Hi)) as X. rewrite R, X.
  destruct (nt_ok_entry d nt i H Hi) as (S1 & _). rewrite exact_inv by auto. apply i32_id. auto.
Qed.

(** points of the interface go to points of the interface *)
Lemma forward_on d nt p : nt_ok d nt = true -> on d (n_type nt) (n_self nt) p ->
  fits d nt p /\ on d (n_type nt) (n_neigh nt) (nt_forward d nt p).
Proof.
  intros H (F & B).
  assert (K : forall i, 0 <= i < nd d -> match at_axis (n_type nt) (n_neigh nt) i with None => 0 <= exact nt p i <= ROOT_LEN | Some b => exact nt p i = side b end).
  { intros i Hi. pose proof (B _ (perm_axis _ _ i H Hi)) as Bi. destruct (nt_ok_entry d nt i H Hi) as (S1 & O1 & O2 & [(E1 & E2 & K)|(b & b' & E1 & E2 & K1 & K2 & K3)]);
    rewrite E1 in Bi; rewrite E2; unfold exact.
    - destruct K as [(K1 & K2)|(-> & K)]; [|lia]. destruct S1 as [-> | ->]; lia.
    - rewrite Bi, K1, K2. lia. }
  assert (FI : fits d nt p).
  { intros i Hi. specialize (K i Hi). destruct (at_axis _ _ i) as [[|]|]; cbn [side] in K; change ROOT_LEN with (2 ^ 30) in K; lia. }
  split; [exact FI|]. split; [apply forward_flat|]. intros i Hi. rewrite forward_get, i32_id by auto. apply K. auto.
Qed.
Lemma forward_lies d nt p : nt_ok d nt = true -> lies d (n_type nt) (n_self nt) p -> lies d (n_type nt) (n_neigh nt) (nt_forward d nt p).
Proof.
  intros H L. destruct (forward_on d nt p H (lies_on _ _ _ _ L)) as (FI & FL & G). split; [auto|]. intros i Hi. specialize (G i Hi).
  rewrite forward_get, i32_id in * by auto. destruct L as (_ & B). specialize (B _ (perm_axis _ _ i H Hi)).
  destruct (nt_ok_entry d nt i H Hi) as (S1 & O1 & O2 & [(E1 & E2 & K)|(b & b' & E1 & E2 & K1 & K2 & K3)]);
    rewrite E1 in B; rewrite E2 in *; [|auto]. unfold exact in *.
  destruct K as [(K1 & K2)|(-> & K)]; [|lia]. destruct S1 as [-> | ->]; lia.
Qed.
Lemma inner_fits d nt p : nt_ok d nt = true -> lies d CSelf 0 p -> fits d nt p.
Proof.
  intros H (_ & B) i Hi. specialize (B _ (perm_axis _ _ i H Hi)). cbn in B.
  destruct (nt_ok_entry d nt i H Hi) as (S1 & O1 & O2 & _). unfold exact. change ROOT_LEN with (2 ^ 30) in *. destruct S1 as [-> | ->]; lia.
Qed.
(** the inside of the tree goes to the outside of the neighbor *)
Lemma forward_outside d nt p : nt_ok d nt = true -> n_type nt <> CSelf -> 0 <= n_neigh nt < n_index d (n_type nt) ->
  lies d CSelf 0 p -> ~ closed d (nt_forward d nt p).
Proof.
  intros H NS HN L (_ & C). 
  assert (Q : exists i, 0 <= i < nd d /\ at_axis (n_type nt) (n_neigh nt) i <> None).
  { destruct (n_type nt) eqn:ET; [contradiction| | |]; cbn [n_index] in HN.
    - exists (n_neigh nt / 2). split; [split; [apply Z.div_pos; lia|apply Z.div_lt_upper_bound; [lia|destruct d; cbn in *; lia]]|].
      cbn. rewrite Z.eqb_refl. discriminate.
    - destruct d; [cbn in HN; lia|]. exists (if n_neigh nt / 4 =? 0 then 1 else 0). split; [destruct (_ =? _); cbn; lia|].
      cbn. destruct (n_neigh nt / 4 =? 0) eqn:E0; destruct (_ =? n_neigh nt / 4) eqn:E1; try discriminate; lia.
    - exists 0. split; [destruct d; cbn; lia|discriminate]. }
  destruct Q as (i & Hi & Q). specialize (C i Hi).
  assert (PC : closed d p) by (eapply on_closed; apply lies_on; eauto).
  assert (PP : forall i, 0 <= i < nd d -> 0 < vget p i < ROOT_LEN) by (destruct L as (_ & L); intros j Hj; apply (L j Hj)).
  rewrite forward_get, i32_id in C by (auto; apply (inner_fits d nt p H L); auto).
  specialize (PP _ (perm_axis _ _ i H Hi)).
  destruct (nt_ok_entry d nt i H Hi) as (S1 & O1 & O2 & [(E1 & E2 & K)|(b & b' & E1 & E2 & K1 & K2 & K3)]); [contradiction|].
  unfold exact in C. rewrite K1, K2, K3 in C. destruct b, b'; cbn [side Bool.eqb] in C; lia.
Qed.

(** ** The transforms that are listed have this form *)

Lemma face_nt_ok d f nf o t : 0 <= f < faces d -> 0 <= nf < faces d -> 0 <= o < half d ->
  nt_ok d (with_maps CFace t f nf (face_nt d (expand_face_transform d f nf o))) = true.
Proof.
  intros Hf Hn Ho.
  assert (A : zall (faces d) (fun f => zall (faces d) (fun nf => zall (half d) (fun o =>
    nt_ok d (with_maps CFace 0 f nf (face_nt d (expand_face_transform d f nf o)))))) = true) by (destruct d; vm_compute; reflexivity).
  pose proof (zall_spec _ _ f A Hf) as A1. cbv beta in A1.
  pose proof (zall_spec _ _ nf A1 Hn) as A2. cbv beta in A2.
  exact (zall_spec _ _ o A2 Ho).
Qed.
Lemma edge_nt_ok e ne fl t : 0 <= e < 12 -> 0 <= ne < 12 -> 0 <= fl < 2 -> nt_ok D3 (with_maps CEdge t e ne (edge_nt e ne fl)) = true.
Proof.
  intros Hf Hn Ho.
  assert (A : zall 12 (fun f => zall 12 (fun nf => zall 2 (fun o => nt_ok D3 (with_maps CEdge 0 f nf (edge_nt f nf o))))) = true) by (vm_compute; reflexivity).
  pose proof (zall_spec _ _ e A Hf) as A1. cbv beta in A1.
  pose proof (zall_spec _ _ ne A1 Hn) as A2. cbv beta in A2.
  exact (zall_spec _ _ fl A2 Ho).
Qed.
Lemma corner_nt_ok d k nk t : 0 <= k < children d -> 0 <= nk < children d -> nt_ok d (with_maps CCorner t k nk (corner_nt d k nk)) = true.
Proof.
  intros Hf Hn.
  assert (A : zall (children d) (fun f => zall (children d) (fun nf => nt_ok d (with_maps CCorner 0 f nf (corner_nt d f nf)))) = true) by (destruct d; vm_compute; reflexivity).
  pose proof (zall_spec _ _ k A Hf) as A1. cbv beta in A1.
  exact (zall_spec _ _ nk A1 Hn).
Qed.
Lemma self_nt_ok d t : nt_ok d (self_nt t) = true.
Proof. destruct d; vm_compute; reflexivity. Qed.
