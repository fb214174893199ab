(** * Lemmas on the connectivity model *)

From Coq Require Import ZArith List Bool Lia ZifyBool.
From Verif Require Import Quad Neighbor Transform Partition Conn.
Import ListNotations.
Open Scope Z_scope.

Lemma andthen_true m k : (m ;; k) = Some true <-> m = Some true /\ k = Some true.
Proof. destruct m as [[|]|]; cbn; intuition congruence. Qed.
Lemma andthen_ok m k : m <> None -> (m = Some true -> k <> None) -> (m ;; k) <> None.
Proof. destruct m as [[|]|]; cbn; intuition congruence. Qed.
Lemma with_true x f : with_ x f = Some true <-> exists v, x = Some v /\ f v = Some true.
Proof.
  destruct x; cbn; split.
  - intros H. eexists; split; [reflexivity|auto].
  - intros (v & E & H). injection E as <-. auto.
  - discriminate.
  - intros (v & E & _). discriminate.
Qed.
Lemma with_ok x f : x <> None -> (forall v, x = Some v -> f v <> None) -> with_ x f <> None.
Proof. destruct x; cbn; intros A B; [apply B; reflexivity | congruence]. Qed.
Lemma some_true b : Some b = Some true <-> b = true.
Proof. intuition congruence. Qed.
Lemma range_true v lo hi : in_range v lo hi = true <-> lo <= v < hi.
Proof. unfold in_range. lia. Qed.

Lemma each_true f : forall n i, each f i n = Some true <-> forall j, i <= j < i + Z.of_nat n -> f j = Some true.
Proof.
  induction n as [|n IH]; intros i; cbn [each].
  - split; [intros _ j H; lia | reflexivity].
  - rewrite andthen_true, IH. split.
    + intros (A & B) j H. destruct (Z.eq_dec j i) as [->|N]; [auto|]. apply B. lia.
    + intros H. split; [apply H; lia|]. intros j Hj. apply H. lia.
Qed.
Lemma each_ok f : forall n i, (forall j, i <= j < i + Z.of_nat n -> f j <> None) -> each f i n <> None.
Proof.
  induction n as [|n IH]; intros i H; cbn [each]; [discriminate|].
  apply andthen_ok; [apply H; lia|]. intros _. apply IH. intros j Hj. apply H. lia.
Qed.

Lemma zget_some {A} (l : list A) i : 0 <= i < zlen l -> exists x, zget l i = Some x.
Proof.
  intros H. unfold zget, zlen in *. destruct (i <? 0) eqn:E; [lia|].
  destruct (nth_error l (Z.to_nat i)) eqn:F; [eauto|]. apply nth_error_None in F. lia.
Qed.
Lemma zget_ok {A} (l : list A) i : 0 <= i < zlen l -> zget l i <> None.
Proof. intros H. destruct (zget_some l i H) as (x & ->). discriminate. Qed.
Lemma zget_range {A} (l : list A) i x : zget l i = Some x -> 0 <= i < zlen l.
Proof.
  unfold zget, zlen. destruct (i <? 0) eqn:E; [discriminate|]. intros H.
  assert (nth_error l (Z.to_nat i) <> None) by congruence. apply nth_error_Some in H0. lia.
Qed.
Lemma zget_in {A} (l : list A) i x : zget l i = Some x -> In x l.
Proof. unfold zget. destruct (i <? 0); [discriminate|]. apply nth_error_In. Qed.

Lemma zslice_some {A} (l : list A) : forall n i, 0 <= i -> i + Z.of_nat n <= zlen l -> exists r, zslice l i n = Some r.
Proof.
  induction n as [|n IH]; intros i Hi Hn; cbn [zslice]; [eauto|].
  destruct (zget_some l i ltac:(lia)) as (x & ->). destruct (IH (i + 1) ltac:(lia) ltac:(lia)) as (r & ->). eauto.
Qed.
Lemma zslice_ok {A} (l : list A) n i : 0 <= i -> i + Z.of_nat n <= zlen l -> zslice l i n <> None.
Proof. intros A1 B. destruct (zslice_some l n i A1 B) as (r & ->). discriminate. Qed.
Lemma zslice_nth {A} (l : list A) : forall n i r, zslice l i n = Some r ->
  length r = n /\ forall k, (k < n)%nat -> nth_error r k = zget l (i + Z.of_nat k).
Proof.
  induction n as [|n IH]; intros i r; cbn [zslice].
  - intros H. injection H as <-. split; [reflexivity|]. intros k Hk. lia.
  - destruct (zget l i) eqn:E; [|discriminate]. destruct (zslice l (i + 1) n) eqn:F; [|discriminate].
    intros H. injection H as <-. destruct (IH _ _ F) as (L & N). split; [cbn; lia|].
    intros [|k] Hk; cbn [nth_error]; [rewrite Z.add_0_r; auto|].
    rewrite N by lia. f_equal. lia.
Qed.

(** ** faces *)
Lemma dim_div_mod d r : 0 <= r -> 0 <= r mod faces d < faces d /\ Z.rem r (faces d) = r mod faces d /\ Z.quot r (faces d) = r / faces d.
Proof.
  intros H. destruct d; cbn [faces]; (split; [apply Z.mod_pos_bound; lia|]);
  rewrite Z.rem_mod_nonneg, Z.quot_div_nonneg by lia; auto.
Qed.

Lemma valid_face_true d c tree face : valid_face d c tree face = Some true ->
  exists nt code, zget (c_ttt c) (tree * faces d + face) = Some nt /\ zget (c_ttf c) (tree * faces d + face) = Some code /\
    0 <= nt < c_nt c /\ 0 <= code < faces d * half d /\
    ((nt = tree /\ code = face) \/
     ((nt <> tree \/ code mod faces d <> face) /\
      zget (c_ttt c) (nt * faces d + code mod faces d) = Some tree /\
      zget (c_ttf c) (nt * faces d + code mod faces d) = Some (face + faces d * (code / faces d)))).
Proof.
  unfold valid_face. intros H. apply with_true in H as (nt & E1 & H). apply andthen_true in H as (R1 & H).
  apply with_true in H as (code & E2 & H). apply andthen_true in H as (R2 & H). cbv zeta in H.
  apply andthen_true in H as (R3 & H).
  apply some_true in R1, R2, R3. apply range_true in R1, R2.
  exists nt, code. repeat (split; [assumption|]).
  assert (Fp : 0 < faces d) by (destruct d; cbn; lia).
  pose proof (Z.div_mod code (faces d) ltac:(lia)) as DM.
  destruct (nt =? tree) eqn:A; destruct (code mod faces d =? face) eqn:B; cbn [negb orb andb] in H, R3.
  - left. split; [lia|]. assert (code / faces d = 0) by lia. rewrite H0, Z.mul_0_r, Z.add_0_l in DM. lia.
  - right. apply with_true in H as (t & E3 & H). apply andthen_true in H as (R4 & H). apply with_true in H as (f & E4 & R5).
    apply some_true in R4, R5. assert (t = tree) by lia. subst t.
    assert (f = face + faces d * (code / faces d)) by lia. subst f. split; [right; lia|]. auto.
  - right. apply with_true in H as (t & E3 & H). apply andthen_true in H as (R4 & H). apply with_true in H as (f & E4 & R5).
    apply some_true in R4, R5. assert (t = tree) by lia. subst t.
    assert (f = face + faces d * (code / faces d)) by lia. subst f. split; [left; lia|]. auto.
  - right. apply with_true in H as (t & E3 & H). apply andthen_true in H as (R4 & H). apply with_true in H as (f & E4 & R5).
    apply some_true in R4, R5. assert (t = tree) by lia. subst t.
    assert (f = face + faces d * (code / faces d)) by lia. subst f. split; [left; lia|]. auto.
Qed.

(** ** acceptance *)
Lemma conn_valid_inv d c : conn_is_valid d c = Some true ->
  exists ne nc, (d = D3 -> zget (c_eoff c) (c_ne c) = Some ne) /\ zget (c_coff c) (c_nc c) = Some nc /\
    (d = D3 -> forall i, 0 <= i < ne -> valid_pair (c_ett c) (c_ete c) (c_nt c) 24 i = Some true) /\
    (forall i, 0 <= i < nc -> valid_pair (c_ctt c) (c_ctc c) (c_nt c) (children d) i = Some true) /\
    (forall t, 0 <= t < c_nt c -> valid_tree d c ne nc t = Some true).
Proof.
  unfold conn_is_valid. intros H. apply with_true in H as (ne & E1 & H). apply with_true in H as (nc & E2 & H).
  repeat (apply andthen_true in H as (? & H)).
  exists ne, nc. split; [intros ->; exact E1|]. split; [exact E2|]. split.
  - intros -> i Hi. cbn [is3] in H2. eapply (proj1 (each_true _ _ _) H2). lia.
  - split.
    + intros i Hi. eapply (proj1 (each_true _ _ _) H3). lia.
    + intros t Ht. eapply (proj1 (each_true _ _ _) H). lia.
Qed.

Lemma valid_tree_inv d c ne nc t : valid_tree d c ne nc t = Some true ->
  (forall f, 0 <= f < faces d -> valid_face d c t f = Some true) /\
  (d = D3 -> forall a, 0 <= a < c_ne c -> valid_offset (c_eoff c) a = Some true) /\
  (d = D3 -> 0 < c_ne c -> forall e, 0 <= e < 12 -> valid_edge c ne t e = Some true) /\
  (forall a, 0 <= a < c_nc c -> valid_offset (c_coff c) a = Some true) /\
  (0 < c_nc c -> forall k, 0 <= k < children d -> valid_corner d c nc t k = Some true).
Proof.
  unfold valid_tree. intros H. apply andthen_true in H as (H1 & H). apply andthen_true in H as (H2 & H).
  apply andthen_true in H as (H3 & H4). split; [|split; [|split; [|split]]].
  - intros f Hf. apply (proj1 (each_true _ _ _) H1). lia.
  - intros -> a Ha. cbn [is3] in H2. apply andthen_true in H2 as (H2 & _). apply (proj1 (each_true _ _ _) H2). lia.
  - intros -> P e He. cbn [is3] in H2. apply andthen_true in H2 as (_ & H2).
    destruct (0 <? c_ne c) eqn:E; [|lia]. apply (proj1 (each_true _ _ _) H2). lia.
  - intros a Ha. apply (proj1 (each_true _ _ _) H3). lia.
  - intros P k Hk. destruct (0 <? c_nc c) eqn:E; [|lia]. apply (proj1 (each_true _ _ _) H4). lia.
Qed.

Lemma valid_pair_inv ts cs nt hi i : valid_pair ts cs nt hi i = Some true ->
  exists t x, zget ts i = Some t /\ zget cs i = Some x /\ 0 <= t < nt /\ 0 <= x < hi.
Proof.
  unfold valid_pair. intros H. apply with_true in H as (t & E1 & H). apply andthen_true in H as (R1 & H).
  apply with_true in H as (x & E2 & R2). apply some_true in R1, R2. apply range_true in R1, R2. eauto 8.
Qed.
Lemma valid_offset_inv off a : valid_offset off a = Some true -> exists b e, zget off a = Some b /\ zget off (a + 1) = Some e /\ b <= e.
Proof.
  unfold valid_offset. intros H. apply with_true in H as (e & E1 & H). apply with_true in H as (b & E2 & H).
  apply some_true in H. exists b, e. lia || (repeat split; auto; lia).
Qed.

(** offsets that do not go backwards are monotone *)
Lemma offsets_mono off n : (forall a, 0 <= a < n -> valid_offset off a = Some true) ->
  forall i j, 0 <= i <= j -> j <= n -> forall x y, zget off i = Some x -> zget off j = Some y -> x <= y.
Proof.
  intros V i j Hi. replace j with (i + Z.of_nat (Z.to_nat (j - i))) by lia.
  generalize (Z.to_nat (j - i)). intros k. induction k as [|k IH]; intros Hj x y Ex Ey.
  - rewrite Z.add_0_r in Ey. rewrite Ex in Ey. injection Ey as <-. lia.
  - destruct (valid_offset_inv _ _ (V (i + Z.of_nat k) ltac:(lia))) as (b & e & Eb & Ee & L).
    replace (i + Z.of_nat (S k)) with (i + Z.of_nat k + 1) in Ey by lia. rewrite Ee in Ey. injection Ey as <-.
    pose proof (IH ltac:(lia) x b Ex Eb). lia.
Qed.

(** ** corner loop *)
Lemma corner_loop_true d c tree corner ac : forall n i cf r, corner_loop d c tree corner ac n i cf = Some (Some r) ->
  (forall j, i <= j < i + Z.of_nat n -> exists nt k, zget (c_ctt c) j = Some nt /\ zget (c_ctc c) j = Some k /\
     zget (c_ttc c) (nt * children d + k) = Some ac) /\
  (r = true -> cf = true \/ exists j, i <= j < i + Z.of_nat n /\ zget (c_ctt c) j = Some tree /\ zget (c_ctc c) j = Some corner) /\
  (cf = true -> r = true) /\
  (forall j, i <= j < i + Z.of_nat n -> zget (c_ctt c) j = Some tree -> zget (c_ctc c) j = Some corner ->
     cf = false /\ forall j', i <= j' < i + Z.of_nat n -> zget (c_ctt c) j' = Some tree -> zget (c_ctc c) j' = Some corner -> j' = j).
Proof.
  induction n as [|n IH]; intros i cf r; cbn [corner_loop].
  - intros H. injection H as <-. repeat split; auto; intros; lia.
  - destruct (zget (c_ctt c) i) as [nt|] eqn:E1; [|discriminate]. destruct (zget (c_ctc c) i) as [k|] eqn:E2; [|discriminate].
    destruct (zget (c_ttc c) (nt * children d + k)) as [x|] eqn:E3; [|discriminate].
    destruct (x =? ac) eqn:E4; cbn [negb]; [|discriminate]. assert (x = ac) by lia. subst x.
    assert (Base : exists nt k, zget (c_ctt c) i = Some nt /\ zget (c_ctc c) i = Some k /\ zget (c_ttc c) (nt * children d + k) = Some ac) by eauto 6.
    destruct ((nt =? tree) && (k =? corner)) eqn:E5.
    + assert (nt = tree) by lia. assert (k = corner) by lia. subst nt k. destruct cf; [discriminate|].
      intros H. destruct (IH _ _ _ H) as (A & B & C & D). split; [|split; [|split]].
      * intros j Hj. destruct (Z.eq_dec j i) as [->|]; [auto|]. apply A. lia.
      * intros _. right. exists i. repeat split; auto; lia.
      * discriminate.
      * intros j Hj G1 G2. split; [reflexivity|].
        assert (U : forall j, i <= j < i + Z.of_nat (S n) -> zget (c_ctt c) j = Some tree -> zget (c_ctc c) j = Some corner -> j = i).
        { intros j1 Hj1 X1 X2. destruct (Z.eq_dec j1 i); [auto|]. destruct (D j1 ltac:(lia) X1 X2) as (F & _). discriminate. }
        intros j' Hj' G3 G4. rewrite (U j), (U j'); auto.
    + intros H. destruct (IH _ _ _ H) as (A & B & C & D). split; [|split; [|split]].
      * intros j Hj. destruct (Z.eq_dec j i) as [->|]; [auto|]. apply A. lia.
      * intros Hr. destruct (B Hr) as [|(j & Hj & G)]; [auto|]. right. exists j. split; [lia|auto].
      * auto.
      * assert (N : forall j, i <= j < i + Z.of_nat (S n) -> zget (c_ctt c) j = Some tree -> zget (c_ctc c) j = Some corner -> j <> i).
        { intros j Hj G1 G2 ->. rewrite E1 in G1. rewrite E2 in G2. injection G1 as ->. injection G2 as ->. lia. }
        intros j Hj G1 G2. pose proof (N j Hj G1 G2). destruct (D j ltac:(lia) G1 G2) as (F & U). split; [auto|].
        intros j' Hj' G3 G4. pose proof (N j' Hj' G3 G4). apply U; auto; lia.
Qed.

Lemma valid_corner_true d c nc tree k : valid_corner d c nc tree k = Some true ->
  exists ac, zget (c_ttc c) (tree * children d + k) = Some ac /\ -1 <= ac < c_nc c /\
    (ac = -1 \/ exists b e, zget (c_coff c) ac = Some b /\ zget (c_coff c) (ac + 1) = Some e /\ 0 <= b < nc /\ 0 <= e <= nc /\
       corner_loop d c tree k ac (Z.to_nat (e - b)) b false = Some (Some true)).
Proof.
  unfold valid_corner. destruct (find_corner_transform d c tree k); [|discriminate].
  intros H. apply with_true in H as (ac & E & H). apply andthen_true in H as (R & H). apply some_true in R. apply range_true in R.
  exists ac. split; [auto|]. split; [lia|]. destruct (ac =? -1) eqn:A; [left; lia|]. right.
  apply with_true in H as (b & E1 & H). apply with_true in H as (e & E2 & H). apply andthen_true in H as (R2 & H).
  apply some_true in R2. apply andb_true_iff in R2 as (R2 & R3). apply range_true in R2, R3.
  exists b, e. repeat (split; [auto; lia|]).
  destruct (corner_loop d c tree k ac (Z.to_nat (e - b)) b false) as [[[|]|]|]; auto; discriminate.
Qed.

(** ** membership *)
Lemma mem_pair_true x l : mem_pair x l = true <-> In x l.
Proof.
  unfold mem_pair. rewrite existsb_exists. split.
  - intros (y & I & E). destruct x as (a & b), y as (a' & b'). cbn in E. replace a with a' by lia. replace b with b' by lia. auto.
  - intros I. exists x. split; [auto|]. destruct x; cbn. lia.
Qed.
Lemma add_pair_in x y l : In y (add_pair x l) <-> y = x \/ In y l.
Proof.
  unfold add_pair. destruct (mem_pair x l) eqn:E.
  - apply mem_pair_true in E. intuition (subst; auto).
  - rewrite in_app_iff. cbn. intuition (subst; auto).
Qed.
Lemma mem_triple_true x l : mem_triple x l = true <-> In x l.
Proof.
  unfold mem_triple. rewrite existsb_exists. split.
  - intros (y & I & E). destruct x as ((a & b) & k), y as ((a' & b') & k'). cbn in E.
    replace a with a' by lia. replace b with b' by lia. replace k with k' by lia. auto.
  - intros I. exists x. split; [auto|]. destruct x as ((a & b) & k); cbn. lia.
Qed.
Lemma add_triple_in x y l : In y (add_triple x l) <-> y = x \/ In y l.
Proof.
  unfold add_triple. destruct (mem_triple x l) eqn:E.
  - apply mem_triple_true in E. intuition (subst; auto).
  - rewrite in_app_iff. cbn. intuition (subst; auto).
Qed.
