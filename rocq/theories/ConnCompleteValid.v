(** * p4est_connectivity_complete: the result is valid *)

From Coq Require Import ZArith List Bool Lia ZifyBool Permutation.
From Verif Require Import Quad Spec Neighbor Transform Partition Conn ConnLemmas ConnBounds Permute PermuteArray ConnComplete ConnCompleteArray ConnCompleteFaces ConnCompleteGroups.
Import ListNotations.
Open Scope Z_scope.

Lemma zslice_is {A} (l : list A) : forall m b, 0 <= b -> (forall i, 0 <= i < zlen m -> zget l (b + i) = zget m i) -> zslice l b (length m) = Some m.
Proof.
  induction m as [|x m IH]; intros b Hb H; cbn [length zslice]; [reflexivity|].
  assert (L : zlen (x :: m) = 1 + zlen m) by (unfold zlen; cbn [length]; lia). pose proof (zlen0 m).
  pose proof (H 0 ltac:(lia)) as HZ. rewrite Z.add_0_r in HZ. cbn in HZ. rewrite HZ.
  rewrite (IH (b + 1)); [reflexivity|lia|]. intros i Hi. specialize (H (i + 1) ltac:(lia)). rewrite zget_cons in H by lia.
  replace (b + 1 + i) with (b + (i + 1)) by lia. rewrite H. f_equal. lia.
Qed.

Lemma edge_loop_group c t e ae : forall l i flip,
  (forall j x, zget l j = Some x -> zget (c_ett c) (i + j) = Some (etree x) /\ zget (c_ete c) (i + j) = Some (ecd x) /\
     zget (c_tte c) (etree x * 12 + Z.rem (ecd x) 12) = Some ae /\ 0 <= ecd x) ->
  NoDup (map (fun x => (etree x, Z.rem (ecd x) 12)) l) ->
  (flip = -1 \/ 0 <= flip /\ ~ In (t, e) (map (fun x => (etree x, Z.rem (ecd x) 12)) l)) ->
  exists r, edge_loop c t e ae (length l) i flip = Some (Some r) /\ (r = flip \/ 0 <= r) /\ (In (t, e) (map (fun x => (etree x, Z.rem (ecd x) 12)) l) -> 0 <= r).
Proof.
  induction l as [|x l IH]; intros i flip H N F; cbn [length edge_loop map].
  - exists flip. split; [auto|]. split; [auto|]. intros [].
  - destruct (H 0 x eq_refl) as (A & B & C & D). rewrite Z.add_0_r in A, B. rewrite A, B, C, Z.eqb_refl. cbn [negb].
    cbn [map] in N. inversion_clear N as [|? ? NI N']. rename N' into N.
    assert (H' : forall j y, zget l j = Some y -> zget (c_ett c) (i + 1 + j) = Some (etree y) /\ zget (c_ete c) (i + 1 + j) = Some (ecd y) /\
       zget (c_tte c) (etree y * 12 + Z.rem (ecd y) 12) = Some ae /\ 0 <= ecd y).
    { intros j y E. pose proof (zget_range _ _ _ E). replace (i + 1 + j) with (i + (j + 1)) by lia. apply H. rewrite zget_cons by lia. rewrite <- E. f_equal. lia. }
    assert (Q : 0 <= Z.quot (ecd x) 12) by (apply Z.quot_pos; lia).
    destruct ((etree x =? t) && (Z.rem (ecd x) 12 =? e)) eqn:EQ.
    + assert (X : (etree x, Z.rem (ecd x) 12) = (t, e)) by (f_equal; lia). cbn [map In] in F.
      destruct F as [->|[_ F]]; [|exfalso; apply F; left; auto]. replace (negb (-1 =? -1)) with false by reflexivity. cbn [andb].
      destruct (IH (i + 1) (Z.quot (ecd x) 12) H' N) as (r & R1 & R2 & R3); [right; split; [auto|rewrite <- X; auto]|].
      exists r. split; [auto|]. split; [right; lia|]. intros _. lia.
    + destruct (IH (i + 1) flip H' N) as (r & R1 & R2 & R3); [destruct F as [F|[F1 F2]]; [auto|right; split; [auto|]; intros I; apply F2; right; auto]|].
      exists r. split; [auto|]. split; [auto|]. intros [E|I]; [|auto]. injection E as E1 E2. lia.
Qed.
Lemma corner_loop_group d c t k ac : forall l i found,
  (forall j x, zget l j = Some x -> zget (c_ctt c) (i + j) = Some (fst x) /\ zget (c_ctc c) (i + j) = Some (snd x) /\
     zget (c_ttc c) (fst x * children d + snd x) = Some ac) ->
  NoDup l -> (found = true -> ~ In (t, k) l) ->
  exists r, corner_loop d c t k ac (length l) i found = Some (Some r) /\ (found = true -> r = true) /\ (In (t, k) l -> r = true).
Proof.
  induction l as [|x l IH]; intros i found H N F; cbn [length corner_loop].
  - exists found. split; [auto|]. split; [auto|]. intros [].
  - destruct (H 0 x eq_refl) as (A & B & C). rewrite Z.add_0_r in A, B. rewrite A, B, C, Z.eqb_refl. cbn [negb].
    inversion_clear N as [|? ? NI N']. rename N' into N.
    assert (H' : forall j y, zget l j = Some y -> zget (c_ctt c) (i + 1 + j) = Some (fst y) /\ zget (c_ctc c) (i + 1 + j) = Some (snd y) /\
       zget (c_ttc c) (fst y * children d + snd y) = Some ac).
    { intros j y E. pose proof (zget_range _ _ _ E). replace (i + 1 + j) with (i + (j + 1)) by lia. apply H. rewrite zget_cons by lia. rewrite <- E. f_equal. lia. }
    destruct ((fst x =? t) && (snd x =? k)) eqn:EQ.
    + assert (X : x = (t, k)) by (destruct x; cbn in *; f_equal; lia). subst x. destruct found; [exfalso; apply F; [auto|left; auto]|].
      destruct (IH (i + 1) true H' N) as (r & R1 & R2 & R3); [auto|]. exists r. auto.
    + destruct (IH (i + 1) found H' N) as (r & R1 & R2 & R3); [intros E I; apply (F E); right; auto|]. exists r. split; [auto|]. split; [auto|].
      intros [->|I]; [cbn in EQ; lia|auto].
Qed.

Lemma nf_andthen a b : a <> Some false -> b <> Some false -> andthen a b <> Some false.
Proof. destruct a as [[|]|]; cbn; congruence. Qed.
Lemma nf_each f : forall n i, (forall j, i <= j < i + Z.of_nat n -> f j <> Some false) -> each f i n <> Some false.
Proof. induction n as [|n IH]; intros i H; cbn [each]; [discriminate|]. apply nf_andthen; [apply H; lia|]. apply IH. intros j Hj. apply H. lia. Qed.
Lemma nf_with o f : (forall v, o = Some v -> f v <> Some false) -> with_ o f <> Some false.
Proof. destruct o; cbn; [auto|discriminate]. Qed.
Lemma some_eq {A} (a b : A) : Some a = Some b -> a = b.
Proof. congruence. Qed.

(** what is asked of the input: the vertices are there, no three faces have the same vertices, and a face that shares its
    vertices with no other face is not linked to one that does *)
Definition partner (d : dim) (ttv : list Z) (nt : Z) (x y : Z * Z) : Prop :=
  In y (all_faces d nt) /\ y <> x /\ Permutation (fverts d ttv x) (fverts d ttv y).

Section Valid.
  Variables (d : dim) (c : conn) (ttv : list Z).
  Hypothesis AL : allocated d c.
  Hypothesis VA : conn_is_valid d c = Some true.
  Hypothesis NV : 0 < c_nv c.
  Hypothesis TV : c_ttv c = Some ttv.
  Hypothesis TW : forall x y z, In x (all_faces d (c_nt c)) -> partner d ttv (c_nt c) x y -> partner d ttv (c_nt c) x z -> y = z.
  Hypothesis UN : forall t f nt code, 0 <= t < c_nt c -> 0 <= f < faces d -> (forall y, ~ partner d ttv (c_nt c) (t, f) y) ->
    zget (c_ttt c) (t * faces d + f) = Some nt -> zget (c_ttf c) (t * faces d + f) = Some code ->
    forall y, ~ partner d ttv (c_nt c) (nt, code mod faces d) y.

  Lemma ttv_len : zlen ttv = c_nt c * children d.
  Proof. destruct AL as (_ & _ & _ & _ & A & _). destruct (A NV) as (l & E & L). congruence. Qed.
  Lemma ttv_range i v : zget ttv i = Some v -> 0 <= v < c_nv c.
  Proof.
    intros E. pose proof (zget_range _ _ _ E) as R. rewrite ttv_len in R. revert VA. unfold conn_is_valid.
    intros V. apply with_true in V as (ne & _ & V). apply with_true in V as (nc & _ & V).
    do 4 apply andthen_true in V as (_ & V). apply andthen_true in V as (V & _). replace (0 <? c_nv c) with true in V by lia.
    apply (proj1 (each_true _ _ _)) with (j := i) in V; [|lia]. rewrite TV in V. cbn [oget] in V. rewrite E in V. cbn [with_] in V. apply some_true, range_true in V. auto.
  Qed.
  Lemma vtx_range t k : 0 <= t < c_nt c -> 0 <= k < children d -> zget ttv (children d * t + k) = Some (vtx d ttv t k) /\ 0 <= vtx d ttv t k < c_nv c.
  Proof.
    clear TW UN. intros Ht Hk. assert (R : 0 <= children d * t + k < zlen ttv) by (rewrite ttv_len; destruct d; cbn [children] in *; lia).
    destruct (zget_some ttv _ R) as (v & E). assert (vtx d ttv t k = v).
    { unfold vtx, nget. rewrite zg in E by lia. apply nth_error_nth. auto. }
    rewrite H. split; [auto|]. eapply ttv_range; eauto.
  Qed.
  Lemma arrays_are_ok : arrays_ok d c ttv = true.
  Proof.
    unfold arrays_ok. destruct AL as (_ & _ & _ & _ & _ & A & B & _). rewrite ttv_len, A, B, !Z.eqb_refl. cbn [andb].
    apply forallb_forall. intros v I. apply zg_ex in I as (i & _ & E). apply ttv_range in E. apply range_true. auto.
  Qed.
  Lemma in_faces t f : In (t, f) (all_faces d (c_nt c)) <-> 0 <= t < c_nt c /\ 0 <= f < faces d.
  Proof. apply (L_in d (c_nt c) (t, f)). Qed.

  Lemma vface t f : 0 <= t < c_nt c -> 0 <= f < faces d -> valid_face d c t f = Some true.
  Proof.
    intros Ht Hf. destruct (conn_valid_inv _ _ VA) as (ne & nc & H).
    assert (V : valid_tree d c ne nc t = Some true) by (apply H; auto). apply valid_tree_inv in V. apply V. auto.
  Qed.

  Lemma faces_done : exists ttt ttf, face_phase d ttv c = (ttt, ttf) /\ zlen ttt = c_nt c * faces d /\ zlen ttf = c_nt c * faces d /\
    (forall x y, In x (all_faces d (c_nt c)) -> partner d ttv (c_nt c) x y -> linked d ttv ttt ttf x y) /\
    (forall x, In x (all_faces d (c_nt c)) -> (forall y, ~ partner d ttv (c_nt c) x y) ->
       zget ttt (fidx d x) = zget (c_ttt c) (fidx d x) /\ zget ttf (fidx d x) = zget (c_ttf c) (fidx d x)).
  Proof.
    destruct AL as (_ & _ & _ & _ & _ & A & B & _).
    destruct (face_phase_spec d ttv c A B) as (ttt & ttf & E & L1 & L2 & LK & UC).
    - intros x y z Ix Iy Iz E1 E2 N1 N2. apply (TW x); [auto| |]; (split; [auto|]; split; [auto|]); apply fkey_eq; auto.
    - exists ttt, ttf. split; [auto|]. split; [auto|]. split; [auto|]. split.
      + intros x y Ix (Iy & N & P). apply LK; auto. apply fkey_eq. auto.
      + intros x Ix NP. apply UC; auto. intros y Iy N EK. apply (NP y). split; [auto|]. split; [auto|]. apply fkey_eq. auto.
  Qed.

  (** every face of the result is accepted *)
  Lemma faces_valid ttt ttf : face_phase d ttv c = (ttt, ttf) -> forall t f, 0 <= t < c_nt c -> 0 <= f < faces d -> valid_face d (set_faces c ttt ttf) t f = Some true.
  Proof.
    intros FP t f Ht Hf. destruct faces_done as (ttt' & ttf' & E & L1 & L2 & LK & UC). rewrite FP in E. injection E as <- <-.
    assert (DEC : (exists y, partner d ttv (c_nt c) (t, f) y) \/ forall y, ~ partner d ttv (c_nt c) (t, f) y).
    { destruct (existsb (fun y => negb ((fst y =? t) && (snd y =? f)) && list_eqb (fkey d ttv (t, f)) (fkey d ttv y)) (all_faces d (c_nt c))) eqn:X.
      - left. apply existsb_exists in X as (y & Iy & Q). exists y. apply andb_true_iff in Q as (Q1 & Q2). split; [auto|]. split; [intros ->; cbn in Q1; lia|].
        apply fkey_eq, list_eqb_eq. auto.
      - right. intros y (Iy & N & P). rewrite <- not_true_iff_false in X. apply X. apply existsb_exists. exists y. split; [auto|]. apply andb_true_iff. split.
        + destruct y as [a b]. cbn. destruct ((a =? t) && (b =? f)) eqn:Q; [exfalso; apply N; f_equal; lia|auto].
        + apply list_eqb_eq, fkey_eq. auto. }
    assert (IDX : forall a b, t * faces d + f = fidx d (t, f) /\ a * faces d + b = fidx d (a, b)) by (intros; unfold fidx; cbn; lia).
    unfold valid_face. cbn [set_faces c_ttt c_ttf c_nt]. destruct DEC as [(y & P)|NP].
    - assert (Ix : In (t, f) (all_faces d (c_nt c))) by (apply in_faces; auto).
      destruct (LK _ _ Ix P) as (r & R & X1 & X2 & X3 & X4). destruct y as [t' f']. destruct P as (Iy & NE & PM). apply in_faces in Iy as [Ht' Hf'].
      cbn [fst snd] in *. assert (Rr : 0 <= r < half d) by (destruct R as [->| ->]; apply forient_spec; [|apply Permutation_sym]; auto).
      destruct (IDX t' f') as [-> I2]. rewrite X1. cbn [with_]. replace (in_range t' 0 (c_nt c)) with true by (symmetry; apply range_true; auto). cbn [andthen].
      rewrite X3. cbn [with_].
      assert (DM : (faces d * r + f') mod faces d = f' /\ (faces d * r + f') / faces d = r).
      { rewrite (Z.mul_comm (faces d)), Z.add_comm. assert (faces d <> 0) by (destruct d; discriminate). rewrite Z.mod_add, Z.div_add by auto. rewrite Z.mod_small, Z.div_small by auto. lia. }
      destruct DM as [-> ->].
      replace (in_range (faces d * r + f') 0 (faces d * half d)) with true by (symmetry; apply range_true; destruct d; cbn [faces half] in *; lia). cbn [andthen].
      replace (negb ((t' =? t) && (f' =? f) && negb (r =? 0))) with true by (destruct ((t' =? t) && (f' =? f)) eqn:Q; [exfalso; apply NE; f_equal; lia|reflexivity]). cbn [andthen].
      destruct (negb (t' =? t) || negb (f' =? f)); [|reflexivity]. rewrite I2, X2. cbn [with_ andthen]. rewrite Z.eqb_refl. cbn [andthen]. rewrite X4. cbn [with_]. f_equal. lia.
    - pose proof (vface t f Ht Hf) as V. unfold valid_face in V. destruct (IDX 0 0) as [I0 _]. rewrite I0 in *.
      assert (Ix : In (t, f) (all_faces d (c_nt c))) by (apply in_faces; auto).
      destruct (UC _ Ix NP) as [U1 U2]. rewrite U1, U2. destruct (zget (c_ttt c) (fidx d (t, f))) as [nt|] eqn:Z1; [|discriminate]. cbn [with_] in *.
      apply andthen_true in V as (V1 & V). rewrite V1. cbn [andthen]. apply some_true, range_true in V1.
      destruct (zget (c_ttf c) (fidx d (t, f))) as [code|] eqn:Z2; [|discriminate]. cbn [with_] in *.
      apply andthen_true in V as (V2 & V). apply some_true in V2. rewrite V2. cbv zeta in *. apply andthen_true in V as (V3 & V). apply some_true in V3. rewrite V3.
      destruct (negb (nt =? t) || negb (code mod faces d =? f)); [|reflexivity]. destruct (IDX nt (code mod faces d)) as [_ I2]. rewrite I2 in *.
      assert (NP2 : forall y, ~ partner d ttv (c_nt c) (nt, code mod faces d) y).
      { apply (UN t f nt code); auto; rewrite I0; auto. }
      assert (M : 0 <= code mod faces d < faces d) by (apply Z.mod_pos_bound; destruct d; cbn; lia).
      destruct (UC (nt, code mod faces d)) as [W1 W2]; [apply in_faces; auto|auto|]. rewrite W1, W2. exact V.
  Qed.
End Valid.
