(** * The neighbor relation is symmetric: lists of corner and edge neighbors *)

From Coq Require Import ZArith List Bool Lia Arith ZifyBool.
From Verif Require Import Quad Spec Neighbor RangeBoundLemmas PropertiesNeighbor Transform PropertiesTransform
  Partition Conn ConnLemmas ConnBounds PropertiesConn.
Import ListNotations.
Open Scope Z_scope.

Lemma all_range n f i : forallb f (r n) = true -> 0 <= i < n -> f i = true.
Proof. intros H Hi. rewrite forallb_forall in H. apply H. apply r_in. exact Hi. Qed.

(** the other side of a face *)
Lemma face_back d c t f nt code : conn_is_valid d c = Some true -> 0 <= t < c_nt c -> 0 <= f < faces d ->
  zget (c_ttt c) (faces d * t + f) = Some nt -> zget (c_ttf c) (faces d * t + f) = Some code -> ~ (nt = t /\ code = f) ->
  0 <= nt < c_nt c /\ 0 <= code mod faces d < faces d /\ 0 <= code / faces d < half d /\
  zget (c_ttt c) (faces d * nt + code mod faces d) = Some t /\
  zget (c_ttf c) (faces d * nt + code mod faces d) = Some (f + faces d * (code / faces d)) /\
  (nt <> t \/ code mod faces d <> f).
Proof.
  intros V Ht Hf E1 E2 N. destruct (conn_valid_inv _ _ V) as (ne & nc & _ & _ & _ & _ & TV).
  destruct (valid_tree_inv _ _ _ _ _ (TV t Ht)) as (FV & _). assert (Fp : 0 < faces d) by (destruct d; cbn; lia).
  destruct (valid_face_true _ _ _ _ (FV f Hf)) as (nt0 & code0 & G1 & G2 & Rn & Rc & Kc).
  replace (t * faces d + f) with (faces d * t + f) in G1, G2 by lia. rewrite E1 in G1. rewrite E2 in G2. injection G1 as <-. injection G2 as <-.
  destruct Kc as [K|(K & A & B)]; [contradiction|]. split; [exact Rn|]. split; [apply Z.mod_pos_bound; lia|].
  split; [split; [apply Z.div_pos; lia|apply Z.div_lt_upper_bound; lia]|].
  replace (faces d * nt + code mod faces d) with (nt * faces d + code mod faces d) by lia. auto.
Qed.

Lemma corner_back_table : forall d, forallb (fun k => forallb (fun i => forallb (fun nf => forallb (fun o =>
    let f := corner_faces d k i in let k' := face_neighbor_corner d k f nf o in
    (0 <=? k') && (k' <? children d) && existsb (fun i' => corner_faces d k' i' =? nf) (r (nd d)) &&
    (face_neighbor_corner d k' nf f o =? k))
  (r (half d))) (r (faces d))) (r (nd d))) (r (children d)) = true.
Proof. destruct d; vm_compute; reflexivity. Qed.

Lemma across_face_sym d c t k t' k' : conn_is_valid d c = Some true -> 0 <= t < c_nt c -> 0 <= k < children d ->
  across_face d c t k t' k' -> across_face d c t' k' t k.
Proof.
  intros V Ht Hk (i & f & code & Hi & Ef & E1 & E2 & N & Ek). assert (Hf : 0 <= f < faces d) by (rewrite Ef; apply corner_faces_range; auto).
  destruct (face_back d c t f t' code V Ht Hf E1 E2 N) as (Rt & Rn & Ro & B1 & B2 & N2).
  pose proof (corner_back_table d) as T. apply (all_range _ _ k) in T; [|exact Hk]. apply (all_range _ _ i) in T; [|exact Hi].
  apply (all_range _ _ (code mod faces d)) in T; [|exact Rn]. apply (all_range _ _ (code / faces d)) in T; [|exact Ro].
  cbv beta zeta in T. rewrite <- Ef, <- Ek in T. rewrite !andb_true_iff in T. destruct T as (((T1 & T2) & T3) & T4).
  apply existsb_exists in T3. destruct T3 as (i' & I & T3). unfold r in I. apply in_map_iff in I. destruct I as (n & <- & I). apply in_seq in I.
  exists (Z.of_nat n), (code mod faces d), (f + faces d * (code / faces d)).
  assert (Fp : 0 < faces d) by lia.
  split; [lia|]. split; [lia|]. split; [exact B1|]. split; [exact B2|]. split.
  - intros (Q1 & Q2). assert (code / faces d = 0 /\ f = code mod faces d) as (Q3 & Q4).
    { assert (f mod faces d = code mod faces d mod faces d) by (rewrite <- Q2, (Z.mul_comm (faces d)), Z.mod_add by lia; reflexivity).
      rewrite (Z.mod_small f), (Z.mod_small (code mod faces d)) in H by lia. nia. }
    lia.
  - rewrite (Z.mul_comm (faces d)), Z.mod_add, Z.div_add, (Z.mod_small f), (Z.div_small f) by lia. cbn [Z.add]. lia.
Qed.

Lemma edge_back_table : forallb (fun e => forallb (fun i => forallb (fun nf => forallb (fun o =>
    let f := edge_faces e i in let (e', fl) := edge_step e f nf o in
    existsb (fun i' => edge_faces e' i' =? nf) (r 2) && (let (e2, fl2) := edge_step e' nf f o in (e2 =? e) && (fl2 =? fl)))
  (r 4)) (r 6)) (r 2)) (r 12) = true.
Proof. vm_compute. reflexivity. Qed.

Lemma edge_across_sym c t e t' e' fl : conn_is_valid D3 c = Some true -> 0 <= t < c_nt c -> 0 <= e < 12 ->
  edge_across_face c t e t' e' fl -> edge_across_face c t' e' t e fl.
Proof.
  intros V Ht He (i & f & code & Hi & Ef & E1 & E2 & N & He' & Hfl & K).
  assert (Hf : 0 <= f < faces D3) by (rewrite Ef; apply edge_faces_range; auto).
  destruct (face_back D3 c t f t' code V Ht Hf E1 E2 N) as (Rt & Rn & Ro & B1 & B2 & N2). cbn [faces half] in *.
  assert (ES : edge_step e (edge_faces e i) (code mod 6) (code / 6) = (e', fl)) by (apply edge_step_spec; auto; rewrite <- Ef; auto).
  pose proof edge_back_table as T. apply (all_range _ _ e) in T; [|exact He]. apply (all_range _ _ i) in T; [|exact Hi].
  apply (all_range _ _ (code mod 6)) in T; [|exact Rn]. apply (all_range _ _ (code / 6)) in T; [|exact Ro].
  cbv beta zeta in T. rewrite ES in T. apply andb_true_iff in T. destruct T as (T1 & T2).
  apply existsb_exists in T1. destruct T1 as (i' & I & T1). unfold r in I. apply in_map_iff in I. destruct I as (n & <- & I). apply in_seq in I.
  change (Z.to_nat 2) with 2%nat in I.
  destruct (edge_step e' (code mod 6) (edge_faces e i) (code / 6)) as (e2, fl2) eqn:ES2.
  assert (e2 = e /\ fl2 = fl) as (-> & ->) by lia.
  exists (Z.of_nat n), (code mod 6), (f + 6 * (code / 6)).
  assert (M : (f + 6 * (code / 6)) mod 6 = f /\ (f + 6 * (code / 6)) / 6 = code / 6).
  { rewrite (Z.mul_comm 6), Z.mod_add, Z.div_add, (Z.mod_small f), (Z.div_small f) by lia. split; lia. }
  split; [lia|]. split; [lia|]. split; [exact B1|]. split; [exact B2|]. split.
  - intros (Q1 & Q2). destruct M as (M & _). rewrite Q2, Z.mod_mod in M by lia. lia.
  - split; [exact He|]. split; [exact Hfl|]. destruct M as (-> & ->).
    assert (EN : edge_faces e' (Z.of_nat n) = code mod 6) by lia.
    rewrite <- Ef in ES2. rewrite <- EN in ES2. pose proof (proj1 (edge_step_spec e' (Z.of_nat n) f (code / 6) e fl He' ltac:(lia) Hf Ro) ES2) as (_ & _ & R).
    rewrite EN in R. exact R.
Qed.

(** every tree edge is in the lists of edges at most once *)
Definition edges_once (c : conn) : Prop := forall j j' t x x',
  zget (c_ett c) j = Some t -> zget (c_ete c) j = Some x -> zget (c_ett c) j' = Some t -> zget (c_ete c) j' = Some x' -> x mod 12 = x' mod 12 -> j = j'.

Lemma find_edge_iff c t e ae : conn_is_valid D3 c = Some true ->
  0 <= t < c_nt c -> 0 <= e < 12 -> 0 < c_ne c -> zget (c_tte c) (12 * t + e) = Some ae -> ae <> -1 ->
  exists ets b e0 j0 f0, find_edge_transform c t e = Some ets /\ zget (c_eoff c) ae = Some b /\ zget (c_eoff c) (ae + 1) = Some e0 /\
    b <= j0 < e0 /\ zget (c_ett c) j0 = Some t /\ zget (c_ete c) j0 = Some (e + 12 * f0) /\ (f0 = 0 \/ f0 = 1) /\
    forall t' e' fl, In (t', e', fl) ets <-> exists j f, b <= j < e0 /\ j <> j0 /\ zget (c_ett c) j = Some t' /\ zget (c_ete c) j = Some (e' + 12 * f) /\
      0 <= t' < c_nt c /\ 0 <= e' < 12 /\ (f = 0 \/ f = 1) /\ fl = Z.lxor f f0 /\ zget (c_tte c) (12 * t' + e') = Some ae /\
      ~ (t' = t /\ e' = e /\ fl = 0) /\ ~ edge_across_face c t e t' e' fl.
Proof.
  intros V Ht He PE Eae Nae.
  destruct (conn_valid_inv _ _ V) as (ne & nc & Ene & _ & EV & _ & TV). specialize (EV eq_refl).
  destruct (valid_tree_inv _ _ _ _ _ (TV t Ht)) as (FV & _ & KV & _). specialize (KV eq_refl PE).
  pose proof (KV e He) as VK. destruct (valid_edge_true _ _ _ _ VK) as (ae' & E' & Rae & K).
  replace (t * 12 + e) with (12 * t + e) in E' by lia. rewrite Eae in E'. injection E' as <-.
  destruct K as [|(b & e0 & flip & Eb & Ee & Rb & Re & EL & NF)]; [contradiction|].
  unfold valid_edge in VK. destruct (find_edge_transform c t e) as [ets|] eqn:FE; [|discriminate]. clear VK.
  unfold find_edge_transform in FE. destruct (c_ne c =? 0) eqn:E0; [lia|]. rewrite Eae in FE.
  destruct (ae =? -1) eqn:E1; [lia|]. rewrite Eb, Ee in FE.
  destruct (edge_distinct c t e) as [dis|] eqn:ED; [|discriminate].
  destruct (zslice (c_ett c) b (Z.to_nat (e0 - b))) as [ts|] eqn:Z1; [|discriminate].
  destruct (zslice (c_ete c) b (Z.to_nat (e0 - b))) as [es|] eqn:Z2; [|discriminate].
  pose proof (slice_pairs _ _ _ _ _ _ Z1 Z2) as SP.
  pose proof (edge_loop_entries c t e ae _ _ _ _ EL) as ENT.
  assert (PR : forall j nt code, b <= j < b + Z.of_nat (Z.to_nat (e0 - b)) -> zget (c_ett c) j = Some nt -> zget (c_ete c) j = Some code ->
     0 <= nt < c_nt c /\ 0 <= code < 24 /\ 0 <= Z.rem code 12 < 12 /\ (Z.quot code 12 = 0 \/ Z.quot code 12 = 1)).
  { intros j nt code Hj X1 X2. destruct (valid_pair_inv _ _ _ _ _ (EV j ltac:(lia))) as (t1 & k1 & G1 & G2 & R1 & R2).
    rewrite X1 in G1. rewrite X2 in G2. injection G1 as <-. injection G2 as <-. split; [exact R1|]. split; [exact R2|].
    split; [apply Z.rem_bound_pos; lia|]. rewrite Z.quot_div_nonneg by lia.
    assert (0 <= code / 12 < 2) by (split; [apply Z.div_pos; lia|apply Z.div_lt_upper_bound; lia]). lia. }
  assert (SF : exists y, In (t, y) (combine ts es) /\ Z.rem y 12 = e).
  { destruct (edge_loop_self c ne t e ae (Z.to_nat (e0 - b)) b (-1) flip ltac:(lia) ltac:(lia) EL) as [|(j & code & Hj & X1 & X2 & X3)]; [contradiction|].
    exists code. split; [|auto]. apply SP. eauto. }
  destruct (find_self_spec t e (combine ts es) 0 SF) as (k0 & re0 & N0 & R0 & FS). rewrite FS in FE. injection FE as <-.
  assert (Fl : Z.quot re0 12 = 0 \/ Z.quot re0 12 = 1).
  { apply nth_error_In in N0. apply SP in N0 as (j & Hj & X1 & X2). destruct (PR j _ _ Hj X1 X2) as (_ & _ & _ & ?). auto. }
  destruct (zslice_nth _ _ _ _ Z1) as (L1 & N1). destruct (zslice_nth _ _ _ _ Z2) as (L2 & N2).
  assert (NC : forall k x y, nth_error (combine ts es) k = Some (x, y) <-> (k < Z.to_nat (e0 - b))%nat /\
      zget (c_ett c) (b + Z.of_nat k) = Some x /\ zget (c_ete c) (b + Z.of_nat k) = Some y).
  { intros k' x y.
    assert (NC' : nth_error (combine ts es) k' = Some (x, y) <-> nth_error ts k' = Some x /\ nth_error es k' = Some y).
    { clear. revert es k'. induction ts as [|a ts IH]; intros [|a' es] [|k]; cbn; try (split; [discriminate|intros (? & ?); discriminate]).
      - split; [intros H; injection H as -> ->; auto|]. intros (H1 & H2). injection H1 as ->. injection H2 as ->. reflexivity.
      - apply IH. }
    rewrite NC'. split.
    - intros (A1 & A2). assert (Hk : (k' < length ts)%nat) by (apply nth_error_Some; congruence). rewrite N1 in A1 by lia. rewrite N2 in A2 by lia. split; [lia|]. auto.
    - intros (Hk & A1 & A2). rewrite N1, N2 by lia. auto. }
  assert (QR : forall y, y = Z.rem y 12 + 12 * Z.quot y 12) by (intros y; pose proof (Z.quot_rem' y 12); lia).
  destruct (proj1 (NC _ _ _) N0) as (K1 & K2 & K3).
  exists (edge_collect dis (0 + Z.of_nat k0) (Z.quot re0 12) (combine ts es) 0), b, e0, (b + Z.of_nat k0), (Z.quot re0 12).
  split; [reflexivity|]. split; [exact Eb|]. split; [exact Ee|]. split; [lia|]. split; [exact K2|]. split; [rewrite K3; f_equal; rewrite <- R0; apply QR|]. split; [exact Fl|].
  intros t' e' fl. rewrite edge_collect_spec. split.
  - intros (k & re & Nk & Ne & -> & -> & ND). destruct (proj1 (NC _ _ _) Nk) as (K4 & K5 & K6).
    assert (Hj : b <= b + Z.of_nat k < b + Z.of_nat (Z.to_nat (e0 - b))) by lia.
    destruct (PR _ _ _ Hj K5 K6) as (P1 & P2 & P3 & P4).
    exists (b + Z.of_nat k), (Z.quot re 12). split; [lia|]. split; [lia|]. split; [exact K5|]. split; [rewrite <- QR; exact K6|]. split; [exact P1|]. split; [exact P3|]. split; [exact P4|].
    split; [reflexivity|]. split.
    { destruct (ENT _ Hj) as (nt & code & Y1 & Y2 & Y3). rewrite K5 in Y1. rewrite K6 in Y2. injection Y1 as <-. injection Y2 as <-.
      replace (12 * t' + Z.rem re 12) with (t' * 12 + Z.rem re 12) by lia. exact Y3. }
    rewrite (edge_distinct_spec c V t e dis Ht He ED) in ND. tauto.
  - intros (j & f & Hj & Nj & X1 & X2 & P1 & P2 & Hf & -> & X3 & NS & NA).
    assert (RQ : Z.rem (e' + 12 * f) 12 = e' /\ Z.quot (e' + 12 * f) 12 = f).
    { rewrite Z.rem_mod_nonneg, Z.quot_div_nonneg by lia. rewrite (Z.mul_comm 12), Z.mod_add, Z.div_add, Z.mod_small, Z.div_small by lia. split; lia. }
    exists (Z.to_nat (j - b)), (e' + 12 * f). destruct RQ as (-> & ->). split.
    { apply NC. replace (b + Z.of_nat (Z.to_nat (j - b))) with j by lia. split; [lia|]. auto. }
    split; [lia|]. split; [reflexivity|]. split; [reflexivity|]. rewrite (edge_distinct_spec c V t e dis Ht He ED). tauto.
Qed.

Lemma edge_sym c t e ets t' e' fl : conn_is_valid D3 c = Some true -> 0 <= c_ne c -> edges_once c -> 0 <= t < c_nt c -> 0 <= e < 12 ->
  find_edge_transform c t e = Some ets -> In (t', e', fl) ets ->
  0 <= t' < c_nt c /\ 0 <= e' < 12 /\ (fl = 0 \/ fl = 1) /\ 0 < c_ne c /\
  exists ae ets', zget (c_tte c) (12 * t + e) = Some ae /\ ae <> -1 /\ zget (c_tte c) (12 * t' + e') = Some ae /\
    find_edge_transform c t' e' = Some ets' /\ In (t, e, fl) ets'.
Proof.
  intros V PE ON Ht He FE I.
  assert (PE' : 0 < c_ne c). { destruct (Z.eq_dec (c_ne c) 0) as [Z0|]; [|lia]. unfold find_edge_transform in FE. rewrite Z0 in FE. change (0 =? 0) with true in FE. cbv iota in FE. injection FE as <-. destruct I. }
  destruct (zget (c_tte c) (12 * t + e)) as [ae|] eqn:Eae.
  2:{ unfold find_edge_transform in FE. rewrite Eae in FE. destruct (c_ne c =? 0); [injection FE as <-; destruct I|discriminate]. }
  assert (Nae : ae <> -1). { intros ->. unfold find_edge_transform in FE. rewrite Eae in FE. destruct (c_ne c =? 0); [injection FE as <-; destruct I|]. change (-1 =? -1) with true in FE. cbv iota in FE. injection FE as <-. destruct I. }
  destruct (find_edge_iff c t e ae V Ht He PE' Eae Nae) as (ets1 & b & e0 & j0 & f0 & F1 & Eb & Ee & Hj0 & A1 & A2 & Hf0 & IFF).
  rewrite FE in F1. injection F1 as <-. apply IFF in I. destruct I as (j & f & Hj & Nj & X1 & X2 & Rt & Re & Hf & Efl & X3 & NS & NA).
  split; [exact Rt|]. split; [exact Re|]. split; [rewrite Efl; destruct Hf as [-> | ->], Hf0 as [-> | ->]; cbn; auto|]. split; [exact PE'|].
  exists ae. destruct (find_edge_iff c t' e' ae V Rt Re PE' X3 Nae) as (ets2 & b2 & e02 & j2 & f2 & F2 & Eb2 & Ee2 & Hj2 & B1 & B2 & Hf2 & IFF2).
  exists ets2. split; [reflexivity|]. split; [exact Nae|]. split; [exact X3|]. split; [exact F2|]. rewrite Eb in Eb2. rewrite Ee in Ee2. injection Eb2 as <-. injection Ee2 as <-.
  assert (M : forall a g, (g = 0 \/ g = 1) -> 0 <= a < 12 -> (a + 12 * g) mod 12 = a) by (intros a g _ Ha; rewrite (Z.mul_comm 12), Z.mod_add, Z.mod_small; lia).
  assert (j2 = j) by (apply (ON j2 j t' _ _ B1 B2 X1 X2); rewrite !M by auto; reflexivity). subst j2.
  rewrite X2 in B2. assert (f2 = f) by (assert (EE : e' + 12 * f = e' + 12 * f2) by congruence; lia). subst f2.
  apply IFF2. exists j0, f0. split; [exact Hj0|]. split; [auto|]. split; [exact A1|]. split; [exact A2|]. split; [exact Ht|]. split; [exact He|]. split; [exact Hf0|].
  split; [rewrite Efl; apply Z.lxor_comm|]. split; [exact Eae|]. split.
  - intros (-> & -> & _). apply Nj. apply (ON j j0 t' _ _ X1 X2 A1 A2). rewrite !M by auto. reflexivity.
  - intros X. apply NA. apply edge_across_sym; auto.
Qed.

Lemma edge_ends_table : forallb (fun k => forallb (fun i => forallb (fun ne => forallb (fun nf =>
    let e := corner_edges k i in let k' := edge_corners ne (Z.lxor nf (b2z (edge_corners e 1 =? k))) in
    (0 <=? e) && (e <? 12) && (0 <=? k') && (k' <? 8) &&
    existsb (fun i' => corner_edges k' i' =? ne) (r 3) &&
    (edge_corners e (Z.lxor nf (b2z (edge_corners ne 1 =? k'))) =? k)) (r 2)) (r 12)) (r 3)) (r 8) = true.
Proof. vm_compute. reflexivity. Qed.

Lemma across_edge_sym d c t k t' k' : conn_is_valid d c = Some true -> edges_once c -> 0 <= t < c_nt c -> 0 <= k < children d ->
  across_edge d c t k t' k' -> across_edge d c t' k' t k.
Proof.
  intros V ON Ht Hk (-> & PE & i & e & ae & ets & ne & nf & Hi & Ee & Eae & Nae & FE & I & Ek). change (children D3) with 8 in Hk.
  assert (He : 0 <= e < 12).
  { pose proof edge_ends_table as T. apply (all_range _ _ k) in T; [|exact Hk]. apply (all_range _ _ i) in T; [|exact Hi]. apply (all_range _ _ 0) in T; [|lia]. apply (all_range _ _ 0) in T; [|lia].
    cbv beta zeta in T. rewrite <- Ee in T. rewrite !andb_true_iff in T. lia. }
  destruct (edge_sym c t e ets t' ne nf V ltac:(lia) ON Ht He FE I) as (Rt & Rn & Rf & _ & ae' & ets' & E1 & _ & E2 & F2 & I2).
  rewrite Eae in E1. injection E1 as <-.
  pose proof edge_ends_table as T. apply (all_range _ _ k) in T; [|exact Hk]. apply (all_range _ _ i) in T; [|exact Hi]. apply (all_range _ _ ne) in T; [|exact Rn]. apply (all_range _ _ nf) in T; [|lia].
  cbv beta zeta in T. rewrite <- Ee, <- Ek in T. rewrite !andb_true_iff in T. destruct T as ((_ & T3) & T4).
  apply existsb_exists in T3. destruct T3 as (i' & I' & T3). unfold r in I'. apply in_map_iff in I'. destruct I' as (n & <- & I'). apply in_seq in I'. change (Z.to_nat 3) with 3%nat in I'.
  split; [reflexivity|]. split; [exact PE|]. exists (Z.of_nat n), ne, ae, ets', e, nf. split; [lia|]. split; [lia|]. split; [exact E2|]. split; [exact Nae|]. split; [exact F2|]. split; [exact I2|]. lia.
Qed.

Lemma corner_sym d c t k cts t' k' : conn_is_valid d c = Some true -> 0 <= c_ne c -> 0 <= c_nc c -> (d = D3 -> edges_once c) -> 0 <= t < c_nt c -> 0 <= k < children d ->
  find_corner_transform d c t k = Some cts -> In (t', k') cts ->
  0 <= t' < c_nt c /\ 0 <= k' < children d /\ exists cts', find_corner_transform d c t' k' = Some cts' /\ In (t, k) cts'.
Proof.
  intros V PE PC ON Ht Hk FC I.
  assert (PC' : 0 < c_nc c). { destruct (Z.eq_dec (c_nc c) 0) as [Z0|]; [|lia]. unfold find_corner_transform in FC. rewrite Z0 in FC. change (0 =? 0) with true in FC. cbv iota in FC. injection FC as <-. destruct I. }
  destruct (zget (c_ttc c) (children d * t + k)) as [ac|] eqn:Eac.
  2:{ unfold find_corner_transform in FC. rewrite Eac in FC. destruct (c_nc c =? 0); [injection FC as <-; destruct I|discriminate]. }
  assert (Nac : ac <> -1). { intros ->. unfold find_corner_transform in FC. rewrite Eac in FC. destruct (c_nc c =? 0); [injection FC as <-; destruct I|]. change (-1 =? -1) with true in FC. cbv iota in FC. injection FC as <-. destruct I. }
  destruct (C48_corner_neighbors d c t k ac V Ht Hk PC' PE Eac Nac) as (l & F1 & _ & IFF). rewrite FC in F1. injection F1 as <-.
  apply IFF in I. destruct I as (Rt & Rk & E' & NS & NF & NE).
  split; [exact Rt|]. split; [exact Rk|]. destruct (C48_corner_neighbors d c t' k' ac V Rt Rk PC' PE E' Nac) as (l' & F2 & _ & IFF2).
  exists l'. split; [exact F2|]. apply IFF2. split; [exact Ht|]. split; [exact Hk|]. split; [exact Eac|]. split; [intros (-> & ->); apply NS; auto|]. split.
  - intros X. apply NF. apply across_face_sym; auto.
  - intros X. apply NE. apply across_edge_sym; auto. apply ON. destruct X as (X & _). exact X.
Qed.
