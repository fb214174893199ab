(** * C25: the global number of leaves per tree *)

From Coq Require Import ZArith List Bool Lia Arith ZifyBool Sorting.Sorted.
From Verif Require Import Quad Spec Interval QuadLemmas DescLemmas.
From Verif Require Import Search Adapt ListLemmas Partition PartLemmas PartTrees PartRecv PartFinal PartShip Comm CommLemmas OwnerLemmas PropertiesOwner.
From Verif Require Import Pertree Transfer TransferLemmas PertreeLemmas.
Import ListNotations.
Open Scope Z_scope.

Lemma csum_succ f : forall n, csum f (S n) = f 0 + csum (fun k => f (k + 1)) n.
Proof.
  induction n as [|n IH]; [cbn [csum Z.of_nat]; lia|]. change (csum f (S (S n))) with (csum f (S n) + f (Z.of_nat (S n))). rewrite IH. cbn [csum].
  replace (Z.of_nat n + 1) with (Z.of_nat (S n)) by lia. lia.
Qed.

Lemma loc_from_csum {A} (trees : Z -> list A) : forall n s, zlen (loc_from s n trees) = csum (fun t => zlen (trees (s + t))) n.
Proof.
  induction n as [|n IH]; intros s; [reflexivity|]. rewrite csum_succ. cbn [loc_from].
  assert (E : zlen (map (pair s) (trees s) ++ loc_from (s + 1) n trees) = zlen (trees s) + zlen (loc_from (s + 1) n trees))
    by (unfold zlen; rewrite app_length, map_length; lia).
  rewrite E, IH. replace (s + 0) with s by lia. f_equal. apply csum_ext. intros k _. f_equal. f_equal. lia.
Qed.

Lemma csum_sum {A} (f : A -> Z) (dflt : A) : forall l, csum (fun k => f (nth (Z.to_nat k) l dflt)) (length l) = fold_right Z.add 0 (map f l).
Proof.
  induction l as [|h l IH]; [reflexivity|]. cbn [length map fold_right]. rewrite csum_succ. cbn [Z.to_nat nth]. f_equal.
  rewrite <- IH. apply csum_ext. intros k Hk. replace (Z.to_nat (k + 1)) with (S (Z.to_nat k)) by lia. reflexivity.
Qed.

Lemma tree_zero d m : qin d (g_quad m) -> at_zero d (g_quad m) = (qpos d (g_quad m) =? 0).
Proof.
  intros HI. assert (H0 : qin d (mkq 0 0 0 0)) by (destruct d; vm_compute; repeat split; congruence).
  pose proof (coords_differ_spec d (g_quad m) (mkq 0 0 0 0) HI H0) as CD.
  assert (Z0 : qpos d (mkq 0 0 0 0) = 0) by (destruct d; vm_compute; reflexivity). rewrite Z0 in CD.
  unfold coords_differ in CD. cbn [qx qy qz] in CD. unfold at_zero.
  destruct (qx (g_quad m) =? 0), (qy (g_quad m) =? 0), (is3 d), (qz (g_quad m) =? 0), (qpos d (g_quad m) =? 0); cbn in *; congruence.
Qed.

Section S.
  Context {A : Type}.
  Variables (d : dim) (qof : A -> quad) (T : Z) (ranks : list (rk A)).
  Hypothesis HF : forest_ok d qof T ranks.
  Hypothesis HC : covers d qof 0 (T * TREE d) (glob T ranks).
  Hypothesis HT : 1 <= T.

  Let P := zlen ranks.
  Let m (p : Z) := g_tree (mark_hd qof T (glob T (skipn (Z.to_nat p) ranks))).
  Let z (p : Z) := at_zero d (g_quad (mark_hd qof T (glob T (skipn (Z.to_nat p) ranks)))).
  Let dflt : rk A := mkrk A (-1) (-2) (fun _ => []).
  Let L (k t : Z) := zlen (k_trees A (nth (Z.to_nat k) ranks dflt) t).

  Lemma P_pos : 1 <= P.
  Proof.
    unfold P. destruct ranks as [|r l]; [|unfold zlen; cbn [length]; lia]. cbn [glob flat_map covers] in HC. pose proof (tree_pos d) as TP.
    assert (1 * TREE d <= T * TREE d) by (apply Z.mul_le_mono_nonneg_r; lia). lia.
  Qed.

  Lemma zget_nth_dflt k : 0 <= k < P -> zget ranks k = Some (nth (Z.to_nat k) ranks dflt).
  Proof.
    intros Hk. rewrite zget_nth by lia. apply nth_error_nth'. unfold P, zlen in Hk. lia.
  Qed.

  (** everything that the assignment of trees relies on *)
  Lemma setup : exists ms, global_partition qof T ranks = Some ms /\
    (forall p, 0 <= p <= P -> exists mk, zget ms p = Some mk /\ g_tree mk = m p /\ at_zero d (g_quad mk) = z p) /\
    (forall p, P < p -> zget ms p = None) /\
    (forall p, 0 <= p < P -> m p <= m (p + 1)) /\
    (forall p, 0 <= p < P -> m p = m (p + 1) -> z (p + 1) = true -> z p = true) /\
    m 0 = 0 /\ z 0 = true /\ m P = T /\ z P = true /\
    (forall k t, 0 <= k < P -> 0 <= t < T -> t < m k -> L k t = 0) /\
    (forall k t, 0 <= k < P -> 0 <= t < T -> m (k + 1) < t \/ (m (k + 1) = t /\ z (k + 1) = true) -> L k t = 0).
  Proof.
    destruct (markers d qof T ranks HF) as (ms & E & Len & N). exists ms. split; [exact E|]. fold P in Len, N.
    pose proof (tree_pos d) as TP. pose proof P_pos as PP.
    assert (QI : forall p, qin d (g_quad (mark_hd qof T (glob T (skipn (Z.to_nat p) ranks))))) by (intros p; apply wf_qin; apply (mark_hd_wf d qof T ranks HF)).
    set (pos p := qpos d (g_quad (mark_hd qof T (glob T (skipn (Z.to_nat p) ranks))))).
    assert (MP : forall p, mpos d (mark_hd qof T (glob T (skipn (Z.to_nat p) ranks))) = m p * TREE d + pos p) by (intros p; reflexivity).
    assert (PR : forall p, 0 <= pos p < TREE d) by (intros p; apply qpos_range).
    assert (ZP : forall p, z p = (pos p =? 0)) by (intros p; apply tree_zero; apply QI).
    assert (ORD : forall p, 0 <= p < P -> m p * TREE d + pos p <= m (p + 1) * TREE d + pos (p + 1)).
    { intros p Hp. rewrite <- !MP. apply (mark_hd_step d qof T ranks HF p _ (zget_nth_dflt p Hp)). }
    assert (LE : forall a b x y, 0 <= x < TREE d -> 0 <= y < TREE d -> a * TREE d + x <= b * TREE d + y -> a < b \/ (a = b /\ x <= y)).
    { intros a b x y Hx Hy H. destruct (Z.lt_trichotomy a b) as [G|[G|G]]; [left; exact G|right; subst; lia|].
      assert ((b + 1) * TREE d <= a * TREE d) by (apply Z.mul_le_mono_nonneg_r; lia). lia. }
    split.
    { intros p Hp. eexists. split; [apply N; exact Hp|]. split; reflexivity. }
    split.
    { intros p Hp. rewrite zget_nth by lia. apply nth_error_None. unfold zlen in Len. lia. }
    split.
    { intros p Hp. destruct (LE _ _ _ _ (PR p) (PR (p + 1)) (ORD p Hp)); lia. }
    split.
    { intros p Hp Em Ez. rewrite ZP in *. destruct (LE _ _ _ _ (PR p) (PR (p + 1)) (ORD p Hp)) as [G|[G1 G2]]; [lia|]. pose proof (PR p). lia. }
    assert (M0 : mpos d (mark_hd qof T (glob T (skipn (Z.to_nat 0) ranks))) = 0).
    { cbn [Z.to_nat skipn]. destruct (glob T ranks) as [|x l] eqn:EG; cbn [covers] in HC.
      - assert (1 * TREE d <= T * TREE d) by (apply Z.mul_le_mono_nonneg_r; lia). lia.
      - destruct HC as [H0 _]. exact H0. }
    rewrite MP in M0.
    assert (M00 : m 0 = 0 /\ pos 0 = 0).
    { assert (0 <= m 0).
      { unfold m. cbn [Z.to_nat skipn]. destruct (glob T ranks) as [|x l] eqn:EG; [cbn; lia|]. cbn [mark_hd mark g_tree]. assert (I : In x (glob T ranks)) by (rewrite EG; left; reflexivity). pose proof (glob_label T ranks x I). lia. }
      assert (0 <= m 0 * TREE d) by (apply Z.mul_nonneg_nonneg; lia). pose proof (PR 0). split; [|lia].
      assert (E0 : m 0 * TREE d = 0) by lia. apply Z.mul_eq_0 in E0. lia. }
    destruct M00 as [M01 M02]. split; [exact M01|]. split; [rewrite ZP, M02; reflexivity|].
    assert (MPP : m P = T /\ z P = true).
    { unfold m, z, P. replace (Z.to_nat (zlen ranks)) with (length ranks) by (unfold zlen; lia). rewrite skipn_all. split; [reflexivity|]. cbn. destruct d; reflexivity. }
    destruct MPP as [MP1 MP2]. split; [exact MP1|]. split; [exact MP2|].
    destruct (C26_global_partition d qof T ranks HF) as (ms2 & E2 & _ & _ & H26). rewrite E in E2. injection E2 as <-.
    assert (LZ : forall k t, 0 <= k < P -> 0 <= t < T -> L k t = 0 \/ (m k * TREE d + pos k < (t + 1) * TREE d /\ t * TREE d < m (k + 1) * TREE d + pos (k + 1))).
    { intros k t Hk Ht. unfold L. destruct (k_trees A (nth (Z.to_nat k) ranks dflt) t) as [|a l] eqn:Ea; [left; reflexivity|]. right.
      destruct (H26 k _ (zget_nth_dflt k Hk)) as (m1 & m2 & em & G1 & G2 & _ & _ & _ & _ & G3 & _).
      rewrite N in G1, G2 by lia. injection G1 as <-. injection G2 as <-.
      assert (IX : In (t, a) (loc T (nth (Z.to_nat k) ranks dflt))).
      { unfold loc. replace (Z.to_nat T) with (Z.to_nat t + S (Z.to_nat (T - t - 1)))%nat by lia. rewrite loc_from_app. apply in_or_app. right.
        cbn [loc_from]. apply in_or_app. left. replace (0 + Z.of_nat (Z.to_nat t)) with t by lia. rewrite Ea. left. reflexivity. }
      destruct (G3 _ IX) as [G4 G5]. rewrite MP in G4. rewrite MP in G5. cbn [fst snd] in G4, G5.
      assert (IG : In (t, a) (glob T ranks)).
      { unfold glob. apply in_flat_map. eexists. split; [|exact IX]. pose proof (zget_nth_dflt k Hk) as Ek. rewrite zget_nth in Ek by lia. eapply nth_error_In. exact Ek. }
      destruct HF as (_ & W & _). specialize (W _ IG). cbn [snd] in W. destruct (wf_root_bounds d _ W) as [B1 B2]. fold (TREE d) in B2.
      pose proof (qsize_pos d _ W) as QS. unfold tpos, tend, qend in *. lia. }
    split.
    - intros k t Hk Ht Hlt. destruct (LZ k t Hk Ht) as [H|[H1 H2]]; [exact H|]. exfalso.
      assert ((t + 1) * TREE d <= m k * TREE d) by (apply Z.mul_le_mono_nonneg_r; lia). pose proof (PR k). lia.
    - intros k t Hk Ht Hlt. destruct (LZ k t Hk Ht) as [H|[H1 H2]]; [exact H|]. exfalso. pose proof (PR (k + 1)) as PK.
      destruct Hlt as [G|[G1 G2]].
      + assert ((m (k + 1) + 1) * TREE d <= t * TREE d) by (apply Z.mul_le_mono_nonneg_r; lia). lia.
      + rewrite ZP in G2. rewrite G1 in H2. lia.
  Qed.

  Lemma counts_csum : forall p, 0 <= p <= P ->
    zget (count_quadrants (map (fun r => zlen (loc T r)) ranks)) p = Some (csum (fun k => csum (L k) (Z.to_nat T)) (Z.to_nat p)).
  Proof.
    intros p Hp. unfold count_quadrants. rewrite zget_nth by lia. rewrite running_nth by (rewrite map_length; unfold P, zlen in Hp; lia).
    f_equal. rewrite Z.add_0_l. assert (G : forall n, (n <= length ranks)%nat -> pre (map (fun r => zlen (loc T r)) ranks) n = csum (fun k => csum (L k) (Z.to_nat T)) n).
    { induction n as [|n IH]; intros Hn; [apply pre_0|].
      rewrite (pre_S _ n (zlen (loc T (nth n ranks dflt)))) by (rewrite nth_error_map, (nth_error_nth' ranks dflt) by lia; reflexivity).
      rewrite IH by lia. cbn [csum]. f_equal. unfold loc. rewrite loc_from_csum. apply csum_ext. intros t _. unfold L. rewrite Nat2Z.id. reflexivity. }
    apply G. unfold P, zlen in Hp. lia.
  Qed.

  Lemma global_count t : 0 <= t < T -> csum (fun k => L k t) (Z.to_nat P) = zlen (filter (fun x => fst x =? t) (glob T ranks)).
  Proof.
    intros Ht. unfold L, P. replace (Z.to_nat (zlen ranks)) with (length ranks) by (unfold zlen; lia).
    rewrite (csum_sum (fun r => zlen (k_trees A r t)) dflt ranks). clear - Ht. unfold glob.
    assert (O : forall l : list (Z * A), zlen (filter (fun x => fst x =? t) l) = zlen (ofl t l)) by (intros l; unfold ofl, zlen; rewrite map_length; reflexivity).
    induction ranks as [|r l IH]; [reflexivity|]. cbn [map fold_right flat_map]. rewrite filter_app.
    assert (E : forall a b : list (Z * A), zlen (a ++ b) = zlen a + zlen b) by (intros; unfold zlen; rewrite app_length; lia).
    rewrite E, <- IH. f_equal. rewrite O. unfold loc.
    assert (G : ofl t (loc_from 0 (Z.to_nat T) (k_trees A r)) = k_trees A r t); [|rewrite G; reflexivity].
    pose proof (ofl_sub (k_trees A r) (Z.to_nat T) 0 0 (length (loc_from 0 (Z.to_nat T) (k_trees A r))) t ltac:(lia)) as OS.
    rewrite (sub_all _ (loc_from 0 (Z.to_nat T) (k_trees A r))) in OS by lia. rewrite OS. apply sub_all.
    replace (Z.to_nat T) with (Z.to_nat t + S (Z.to_nat (T - t - 1)))%nat by lia. rewrite loc_from_app, app_length. cbn [loc_from].
    rewrite app_length, map_length. unfold offt. replace (0 + Z.of_nat (Z.to_nat t)) with t by lia. replace (t - 0) with t by lia. lia.
  Qed.

  (** C25 *)
  Theorem C25_count_pertree : exists ms pertree, global_partition qof T ranks = Some ms /\
    count_pertree d ms (count_quadrants (map (fun r => zlen (loc T r)) ranks)) (zlen ranks) T ranks = Some pertree /\
    zlen pertree = T + 1 /\ zget pertree 0 = Some 0 /\
    forall t, 0 <= t < T -> exists a b, zget pertree t = Some a /\ zget pertree (t + 1) = Some b /\
      b - a = zlen (filter (fun x => fst x =? t) (glob T ranks)).
  Proof.
    destruct setup as (ms & E & S1 & S2 & S3 & S4 & S5 & S6 & S7 & S8 & S9 & S10).
    destruct (treecount_spec d ms P T m z P_pos HT S1 S2 S3 S4 S5 S6 S7 S8) as (tc & E1 & E2).
    assert (HL : forall k t, 0 <= k < P -> local_count ranks k t = Some (L k t)) by (intros k t Hk; unfold local_count; rewrite zget_nth_dflt by exact Hk; reflexivity).
    pose proof (gather_spec d ms P T m z P_pos HT S1 S2 S3 S4 S5 S6 S7 S8 tc E2 ranks L _ HL S9 S10 counts_csum (Z.to_nat P) 0 ltac:(lia) ltac:(pose proof P_pos; lia)) as GS.
    assert (O0 : off T m z 0 = 0) by reflexivity.
    assert (OP : off T m z (0 + Z.of_nat (Z.to_nat P)) = T).
    { replace (0 + Z.of_nat (Z.to_nat P)) with P by (pose proof P_pos; lia). apply (off_P d ms P T m z P_pos HT S1 S2 S3 S4 S5 S6 S7 S8). }
    rewrite OP, O0, Z.sub_0_r in GS.
    exists ms, (running 0 (map (G P L) (zs 0 (Z.to_nat T)))). split; [exact E|].
    assert (LZ : forall n a, length (zs a n) = n) by (induction n as [|n IH]; intros a; cbn [zs length]; [reflexivity|rewrite IH; reflexivity]).
    split.
    { unfold count_pertree. fold P. rewrite E1, GS. replace (zlen (map (G P L) (zs 0 (Z.to_nat T))) =? T) with true; [reflexivity|].
      unfold zlen. rewrite map_length, LZ. lia. }
    split; [unfold zlen; rewrite running_length, map_length, LZ; lia|].
    assert (RN : forall t, 0 <= t <= T -> zget (running 0 (map (G P L) (zs 0 (Z.to_nat T)))) t = Some (pre (map (G P L) (zs 0 (Z.to_nat T))) (Z.to_nat t))).
    { intros t Ht. rewrite zget_nth by lia. rewrite running_nth by (rewrite map_length, LZ; lia). f_equal. }
    split; [rewrite RN by lia; f_equal; apply pre_0|].
    intros t Ht. rewrite !RN by lia. eexists _, _. split; [reflexivity|]. split; [reflexivity|].
    replace (Z.to_nat (t + 1)) with (S (Z.to_nat t)) by lia. rewrite (pre_S _ (Z.to_nat t) (G P L t)).
    - rewrite <- (global_count t Ht). unfold G. lia.
    - rewrite nth_error_map. assert (NZ : forall n a k, (k < n)%nat -> nth_error (zs a n) k = Some (a + Z.of_nat k)).
      { clear. induction n as [|n IH]; intros a k Hk; [lia|]. destruct k as [|k]; cbn [zs nth_error]; [f_equal; lia|]. rewrite IH by lia. f_equal. lia. }
      rewrite NZ by lia. cbn [option_map]. f_equal. f_equal. lia.
  Qed.

  (** the messages match: rank p sends to rank r exactly if rank r waits for rank p *)
  Theorem C25_messages : exists ms tc, global_partition qof T ranks = Some ms /\ treecount d ms (zlen ranks) T = Some tc /\
    forall p r, 0 <= p < zlen ranks -> 0 <= r < zlen ranks ->
    ((exists v, pt_send ms tc ranks p = Some (Some (r, v))) <-> pt_waits ms (zlen ranks) tc r = Some (Some p)).
  Proof.
    destruct setup as (ms & E & S1 & S2 & S3 & S4 & S5 & S6 & S7 & S8 & S9 & S10).
    destruct (treecount_spec d ms P T m z P_pos HT S1 S2 S3 S4 S5 S6 S7 S8) as (tc & E1 & E2).
    assert (HL : forall k t, 0 <= k < P -> local_count ranks k t = Some (L k t)) by (intros k t Hk; unfold local_count; rewrite zget_nth_dflt by exact Hk; reflexivity).
    exists ms, tc. split; [exact E|]. split; [exact E1|]. fold P. intros p r Hp Hr. split.
    - intros (v & Hs). apply (send_waits d ms P T m z P_pos HT S1 S2 S3 S4 S5 S6 S7 S8 tc E2 ranks L _ HL S9 S10 counts_csum p Hp r v Hs).
    - intros Hw. destruct (Z.eq_dec (tc r) 0) as [Q|Q]; [unfold pt_waits in Hw; rewrite Q in Hw; discriminate|].
      assert (0 < tc r).
      { pose proof (off_mono d ms P T m z P_pos HT S1 S2 S3 S4 S5 S6 S7 S8 r Hr). pose proof (E2 r Hr). lia. }
      destruct (waits_spec d ms P T m z P_pos HT S1 S2 S3 S4 S5 S6 S7 S8 tc E2 ranks L _ HL S9 S10 counts_csum r Hr ltac:(assumption)) as (p' & W1 & W2 & W3 & W4 & W5 & W6).
      rewrite Hw in W5. destruct (m p' =? off T m z (r + 1) - 1) eqn:C; [|discriminate]. injection W5 as ->. eexists. apply W6. lia.
  Qed.
End S.

(** ** Example: the forest of C26_ex, tree 1 is on two ranks with empty ranks in between *)
Example C25_ex : option_map (fun ms => count_pertree D2 ms (count_quadrants [0; 6; 0; 0; 2]) 5 2 ex_owner) (global_partition (fun q => q) 2 ex_owner)
  = Some (Some [0; 4; 8]).
Proof. vm_compute. reflexivity. Qed.

Print Assumptions C25_count_pertree.
Print Assumptions C25_messages.
