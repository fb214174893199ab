(** * C41, C52: p4est_checksum and p4est_checksum_partition *)

From Coq Require Import ZArith List Bool Lia Arith ZifyBool.
From Verif Require Import Quad Spec Interval QuadLemmas Search Adapt AdaptSpec ListLemmas RefineLemmas Tiles Partition PartLemmas PartTrees PartRecv PartGlue PartFinal PartShip Comm CommLemmas OwnerLemmas.
From Verif Require Import Weighted Bytes Forest ForestSpec ForestLemmas ForestAdapt ForestPart PropertiesForest PropertiesInflate Inflate InflateLemmas Checksum.
Import ListNotations.
Open Scope Z_scope.

(** ** Sums *)
Fixpoint sum1 (l : list Z) : Z := match l with [] => 0 | b :: l' => b + sum1 l' end.
Fixpoint sum2 (l : list Z) : Z := match l with [] => 0 | b :: l' => zlen l * b + sum2 l' end.
Lemma zlen_cons {A} (x : A) l : zlen (x :: l) = zlen l + 1.
Proof. unfold zlen. cbn [length]. lia. Qed.
Lemma sum1_app l l' : sum1 (l ++ l') = sum1 l + sum1 l'.
Proof. induction l as [|b l IH]; cbn [app sum1]; [reflexivity|]. rewrite IH. lia. Qed.
Lemma sum2_app l l' : sum2 (l ++ l') = sum2 l + zlen l' * sum1 l + sum2 l'.
Proof. induction l as [|b l IH]; cbn [app sum1 sum2]; [lia|]. rewrite IH. rewrite !zlen_cons, zlen_app. lia. Qed.

Lemma adler32_sums : forall l x, 0 <= fst x < BASE -> 0 <= snd x < BASE -> adler32 x l = ((fst x + sum1 l) mod BASE, (snd x + zlen l * fst x + sum2 l) mod BASE).
Proof.
  induction l as [|b l IH]; intros (a, c) H1 H2; cbn [fst snd] in *; unfold adler32; cbn [fold_left sum1 sum2].
  - change (zlen (@nil Z)) with 0. replace (a + 0) with a by lia. replace (c + 0 * a + 0) with c by lia. rewrite !Z.mod_small by assumption. reflexivity.
  - fold (adler32 (adler_step (a, c) b) l). unfold adler_step. cbn [fst snd]. rewrite IH by (cbn [fst snd]; apply Z.mod_pos_bound; unfold BASE; lia). cbn [fst snd]. f_equal.
    + rewrite Zplus_mod_idemp_l. f_equal. lia.
    + rewrite zlen_cons. assert (B0 : BASE <> 0) by discriminate.

      replace ((c + (a + b) mod BASE) mod BASE + zlen l * ((a + b) mod BASE) + sum2 l) with ((c + (a + b) mod BASE) mod BASE + (zlen l * ((a + b) mod BASE) + sum2 l)) by lia.
      rewrite Z.add_mod_idemp_l by exact B0.
      replace (c + (a + b) mod BASE + (zlen l * ((a + b) mod BASE) + sum2 l)) with ((zlen l + 1) * ((a + b) mod BASE) + (c + sum2 l)) by lia.
      rewrite <- Z.add_mod_idemp_l, Z.mul_mod_idemp_r, Z.add_mod_idemp_l by exact B0. f_equal. lia.
Qed.

Definition inb (x : adler) : Prop := 0 <= fst x < BASE /\ 0 <= snd x < BASE.
Lemma init_inb : inb adler_init.
Proof. unfold inb, adler_init, BASE. cbn. lia. Qed.
Lemma adler32_inb x l : inb x -> inb (adler32 x l).
Proof. intros (A & B). rewrite adler32_sums by assumption. unfold inb. cbn [fst snd]. split; apply Z.mod_pos_bound; unfold BASE; lia. Qed.

Lemma mod_of x r q : 0 <= r < BASE -> x = BASE * q + r -> r = x mod BASE.
Proof. intros H E. apply (Z.mod_unique_pos x BASE q r H E). Qed.

Lemma combine_mod x y len : inb x -> inb y -> adler32_combine x y len = ((fst x + fst y - 1) mod BASE, (len * fst x + snd x + snd y - len) mod BASE).
Proof.
  intros ((A1 & A2) & (B1 & B2)) ((C1 & C2) & (D1 & D2)). unfold adler32_combine. set (rem := len mod BASE). assert (R : 0 <= rem < BASE) by (apply Z.mod_pos_bound; unfold BASE; lia).
  set (m := (rem * fst x) mod BASE). assert (M : 0 <= m < BASE) by (apply Z.mod_pos_bound; unfold BASE; lia).
  assert (EL : len = BASE * (len / BASE) + rem) by (apply Z.div_mod; discriminate). assert (EM : rem * fst x = BASE * (rem * fst x / BASE) + m) by (apply Z.div_mod; discriminate).
  f_equal.
  - set (t := fst x + fst y + BASE - 1). assert (TB : 0 <= t < 3 * BASE) by (unfold t, BASE in *; lia).
    set (u := if t >=? BASE then t - BASE else t). apply (mod_of _ _ ((if t >=? BASE then 1 else 0) + (if u >=? BASE then 1 else 0) - 1)).
    + assert (UB : 0 <= u < 2 * BASE) by (unfold u; destruct (t >=? BASE) eqn:E1; lia). destruct (u >=? BASE) eqn:E2; lia.
    + replace (fst x + fst y - 1) with (t - BASE) by (unfold t; lia). clearbody t. assert (EU : u = t - BASE * (if t >=? BASE then 1 else 0)) by (unfold u; destruct (t >=? BASE); lia). clearbody u. destruct (u >=? BASE); lia.
  - set (t := m + snd x + snd y + BASE - rem).
    assert (T1 : exists q, len * fst x + snd x + snd y - len = BASE * q + t).
    { unfold t. revert EL EM. generalize (len / BASE) (rem * fst x / BASE). intros k j EL EM. exists (j + k * fst x - k - 1). rewrite EL. replace ((BASE * k + rem) * fst x) with (BASE * (k * fst x) + rem * fst x) by ring. rewrite EM. ring. }
    destruct T1 as (q & T1). assert (TB : 0 <= t < 4 * BASE) by (unfold t, BASE in *; lia).
    set (u := if t >=? 2 * BASE then t - 2 * BASE else t). apply (mod_of _ _ (q + (if t >=? 2 * BASE then 2 else 0) + (if u >=? BASE then 1 else 0))).
    + assert (UB : 0 <= u < 2 * BASE) by (unfold u; destruct (t >=? 2 * BASE) eqn:E1; lia). destruct (u >=? BASE) eqn:E2; lia.
    + rewrite T1. assert (EU : u = t - BASE * (if t >=? 2 * BASE then 2 else 0)) by (unfold u; destruct (t >=? 2 * BASE); lia). clearbody u. rewrite !Z.mul_add_distr_l. destruct (u >=? BASE); lia.
Qed.
Lemma combine_inb x y len : inb x -> inb y -> inb (adler32_combine x y len).
Proof. intros. rewrite combine_mod by assumption. unfold inb. cbn [fst snd]. split; apply Z.mod_pos_bound; unfold BASE; lia. Qed.

(** Combining is concatenation, whatever value comes first. *)
Lemma combine_app x l : inb x -> adler32_combine x (adler32 adler_init l) (zlen l) = adler32 x l.
Proof.
  intros I. rewrite combine_mod by (assumption || apply adler32_inb, init_inb). destruct I as (A & B). rewrite (adler32_sums l adler_init) by apply init_inb. rewrite adler32_sums by assumption. cbn [fst snd adler_init]. f_equal.
  - replace (fst x + (1 + sum1 l) mod BASE - 1) with ((1 + sum1 l) mod BASE + (fst x - 1)) by lia. rewrite Zplus_mod_idemp_l. f_equal. lia.
  - replace (zlen l * fst x + snd x + (0 + zlen l * 1 + sum2 l) mod BASE - zlen l) with ((0 + zlen l * 1 + sum2 l) mod BASE + (zlen l * fst x + snd x - zlen l)) by lia. rewrite Zplus_mod_idemp_l. f_equal. lia.
Qed.
Lemma adler32_app x l l' : adler32 x (l ++ l') = adler32 (adler32 x l) l'.
Proof. unfold adler32. apply fold_left_app. Qed.

Theorem C41_combine : forall l l', adler32_combine (adler32 adler_init l) (adler32 adler_init l') (zlen l') = adler32 adler_init (l ++ l').
Proof. intros. rewrite combine_app by (apply adler32_inb, init_inb). symmetry. apply adler32_app. Qed.
Print Assumptions C41_combine.

(** ** The forest *)
Lemma check_length d q : zlen (check_bytes d q) = 4 * (nd d + 1).
Proof.
  assert (B : forall x, length (be4 x) = 4%nat) by (intros; unfold be4; rewrite rev_length, enc_length; reflexivity).
  unfold zlen, check_bytes. destruct d; [|destruct (ql q <=? OLD_QMAXLEVEL)]; rewrite !app_length, !B; reflexivity.
Qed.
Lemma checks_length d qs : zlen (flat_map (check_bytes d) qs) = 4 * (zlen qs * (nd d + 1)).
Proof. induction qs as [|q qs IH]; [reflexivity|]. cbn [flat_map]. rewrite zlen_app, check_length, IH, zlen_cons. lia. Qed.

Section Sums.
  Variable d : dim.
  Variables (St D : Type).
  Variable little : bool.
  Let bytes (l : list (quad * D)) : list Z := flat_map (check_bytes d) (map fst l).

  Lemma bytes_app l l' : bytes (l ++ l') = bytes l ++ bytes l'.
  Proof. unfold bytes. rewrite map_app, flat_map_app. reflexivity. Qed.

  Lemma trees_sum p : forall n a x s, inb x ->
    fold_left (local_tree d St D p) (zseq a n) (x, s) =
    (adler32 x (bytes (flat_map (lvs St D p) (zseq a n))), s + zlen (bytes (flat_map (lvs St D p) (zseq a n)))).
  Proof.
    induction n as [|n IH]; intros a x s I; [cbn; rewrite Z.add_0_r; reflexivity|]. cbn [zseq fold_left flat_map]. unfold local_tree at 2. cbn [fst snd]. fold (lvs St D p a).
    rewrite bytes_app, zlen_app, adler32_app. change (quadrant_checksum d (map fst (lvs St D p a))) with (adler32 adler_init (bytes (lvs St D p a))).
    assert (EZ : 4 * (zlen (map fst (lvs St D p a)) * (nd d + 1)) = zlen (bytes (lvs St D p a))) by (unfold bytes; rewrite checks_length; reflexivity). rewrite EZ.
    rewrite combine_app by exact I. rewrite IH by (apply adler32_inb; exact I). f_equal. lia.
  Qed.

  Lemma local_sum pd rank p : checksum_local d St D little pd rank p =
    (adler32 (if pd && (rank >? 0) then adler32 (0, 0) (raw4 little (pr_num _ _ p)) else adler_init) (bytes (local_leaves St D p)), zlen (bytes (local_leaves St D p))).
  Proof.
    unfold checksum_local. rewrite trees_sum; [reflexivity|]. destruct (_ && _); [|exact init_inb]. apply adler32_inb. unfold inb, BASE. cbn. lia.
  Qed.
  Lemma comm_sum : forall ps rank x, inb x -> fold_left (fun acc y => adler32_combine acc (fst y) (snd y)) (locals d St D little false rank ps) x =
    adler32 x (bytes (flat_map (local_leaves St D) ps)).
  Proof.
    induction ps as [|p ps IH]; intros rank x I; [reflexivity|]. cbn [locals fold_left flat_map]. rewrite local_sum. cbn [andb fst snd]. rewrite combine_app by exact I. rewrite IH by (apply adler32_inb; exact I). rewrite bytes_app, adler32_app. reflexivity.
  Qed.
End Sums.

(** The checksum is the one of the leaves of all trees, in order, in one array. *)
Theorem C41_checksum : forall d St D T little (F : forest St D), forest_ok d St D T F ->
  checksum d St D little F = Some (value (adler32 adler_init (flat_map (check_bytes d) (map (fun x => fst (snd x)) (all_leaves St D T (f_procs _ _ F)))))).
Proof.
  intros d St D T little F (NE & FP & _). unfold checksum. destruct (f_procs St D F) as [|p ps] eqn:EP; [congruence|]. cbn [locals comm_checksum option_map]. do 2 f_equal.
  rewrite local_sum. cbn [andb fst]. rewrite comm_sum by (apply adler32_inb, init_inb). rewrite <- adler32_app, <- flat_map_app, <- map_app.
  change (local_leaves St D p ++ flat_map (local_leaves St D) ps) with (flat_map (local_leaves St D) (p :: ps)). do 2 f_equal. rewrite <- (map_map snd fst). f_equal.
  unfold all_leaves. clear EP NE. induction FP as [|x l H _ IH]; [reflexivity|]. cbn [flat_map]. rewrite map_app, IH, (local_leaves_ok d T x H). reflexivity.
Qed.
Print Assumptions C41_checksum.

(** It does not depend on the partition, the number of ranks, the data, or the machine. *)
Theorem C41_partition_independent : forall d St D St' D' T little little' (F : forest St D) (F' : forest St' D'), forest_ok d St D T F -> forest_ok d St' D' T F' ->
  map (fun x => fst (snd x)) (all_leaves St D T (f_procs _ _ F)) = map (fun x => fst (snd x)) (all_leaves St' D' T (f_procs _ _ F')) ->
  checksum d St D little F = checksum d St' D' little' F' /\ checksum d St D little F <> None.
Proof. intros. rewrite !(C41_checksum d _ _ T) by assumption. rewrite H1. split; [reflexivity|discriminate]. Qed.
Print Assumptions C41_partition_independent.

(** ** Examples *)
Definition c_new (ss : list unit) : option (forest unit unit) := new_ext D2 unit unit 1 53 (fun s _ _ => (s, tt)) 1 1 true 0 ss.
Lemma c_ok P : (0 < P <= 4)%nat -> exists F, c_new (repeat tt P) = Some F /\ forest_ok D2 unit unit 1 F.
Proof.
  intros HP. destruct (C34_new_ext D2 unit unit 1 53 (fun s _ _ => (s, tt)) 1 1 true (repeat tt P) 1 4) as (n0 & H); try lia; try discriminate.
  - destruct P; [lia|discriminate].
  - unfold zlen. rewrite repeat_length. lia.
  - unfold zlen. rewrite repeat_length. do 5 (destruct P as [|P]; [try lia; vm_compute; reflexivity|]). lia.
  - destruct (H n0 ltac:(lia)) as (F & E & OK & _). exists F. split; [|exact OK]. exact E.
Qed.
Example C41_ex : map (fun P => option_map (checksum D2 unit unit true) (c_new (repeat tt P))) [1; 2; 3; 4]%nat = repeat (Some (Some 167510149)) 4.
Proof. vm_compute. reflexivity. Qed.
(** "abc" and "d" *)
Example C41_ex_combine : value (adler32 adler_init [97; 98; 99]) = 38600999 /\ adler32_combine (adler32 adler_init [97; 98; 99]) (adler32 adler_init [100]) 1 = adler32 adler_init [97; 98; 99; 100].
Proof. vm_compute. split; reflexivity. Qed.

(** ** p4est_checksum_partition *)

(** what a rank adds: its number of leaves changes the value so far, then follow its leaves *)
Definition bump2 (x : adler) (s t : Z) : adler := ((fst x + s) mod BASE, (snd x + t) mod BASE).
Lemma bump_inb x s t : inb (bump2 x s t).
Proof. unfold inb, bump2. cbn [fst snd]. split; apply Z.mod_pos_bound; unfold BASE; lia. Qed.
Lemma combine_from x y l : inb x -> inb y -> adler32_combine x (adler32 y l) (zlen l) = adler32 (bump2 x (fst y - 1) (snd y)) l.
Proof.
  intros I J. rewrite combine_mod by (assumption || apply adler32_inb; exact J). pose proof (bump_inb x (fst y - 1) (snd y)) as (K1 & K2). rewrite (adler32_sums l (bump2 _ _ _)) by assumption. destruct J as (J1 & J2). rewrite adler32_sums by assumption. unfold bump2. cbn [fst snd]. f_equal.
  - replace (fst x + (fst y + sum1 l) mod BASE - 1) with ((fst y + sum1 l) mod BASE + (fst x - 1)) by lia. rewrite !Zplus_mod_idemp_l. f_equal. lia.
  - replace (zlen l * fst x + snd x + (snd y + zlen l * fst y + sum2 l) mod BASE - zlen l) with ((snd y + zlen l * fst y + sum2 l) mod BASE + (zlen l * fst x + snd x - zlen l)) by lia. rewrite Zplus_mod_idemp_l.
    replace ((snd x + snd y) mod BASE + zlen l * ((fst x + (fst y - 1)) mod BASE) + sum2 l) with ((snd x + snd y) mod BASE + (zlen l * ((fst x + (fst y - 1)) mod BASE) + sum2 l)) by lia. rewrite Zplus_mod_idemp_l.
    replace (snd x + snd y + (zlen l * ((fst x + (fst y - 1)) mod BASE) + sum2 l)) with (zlen l * ((fst x + (fst y - 1)) mod BASE) + (snd x + snd y + sum2 l)) by lia. rewrite <- (Zplus_mod_idemp_l (zlen l * ((fst x + (fst y - 1)) mod BASE))), Zmult_mod_idemp_r, Zplus_mod_idemp_l. f_equal. lia.
Qed.
Lemma bump_bump x s t s' t' : bump2 (bump2 x s t) s' t' = bump2 x (s + s') (t + t').
Proof. unfold bump2. cbn [fst snd]. rewrite !Zplus_mod_idemp_l. f_equal; f_equal; lia. Qed.
(** the second sum may be changed before or after *)
Lemma bump_second x t l : inb x -> bump2 (adler32 x l) 0 t = adler32 (bump2 x 0 t) l.
Proof.
  intros (I1 & I2). pose proof (bump_inb x 0 t) as (K1 & K2). rewrite (adler32_sums l (bump2 _ _ _)) by assumption. rewrite adler32_sums by assumption. unfold bump2. cbn [fst snd]. rewrite !Z.add_0_r, Z.mod_mod by (unfold BASE; lia). rewrite !(Z.mod_small (fst x)) by assumption. f_equal.
  rewrite Zplus_mod_idemp_l. replace ((snd x + t) mod BASE + zlen l * fst x + sum2 l) with ((snd x + t) mod BASE + (zlen l * fst x + sum2 l)) by lia. rewrite Zplus_mod_idemp_l. f_equal. lia.
Qed.
Lemma raw_small little n : 0 <= n < 256 -> adler32 (0, 0) (raw4 little n) = (n, (if little then 4 else 1) * n).
Proof.
  intros H. unfold raw4, be4. replace (n mod 2 ^ 32) with n by (rewrite Z.mod_small; lia). assert (E : enc 4 n = [n; 0; 0; 0]).
  { cbn [enc]. rewrite Z.mod_small by lia. rewrite Z.div_small by lia. reflexivity. }
  rewrite E. destruct little; cbn [rev app]; unfold adler32, adler_step; cbn [fold_left fst snd]; rewrite ?Z.add_0_l, ?Z.add_0_r, ?(Z.mod_small 0), ?(Z.mod_small n) by (unfold BASE; lia); f_equal; rewrite ?Z.add_0_l, ?Z.add_0_r, ?(Z.mod_small n), ?(Z.mod_small (n + n)), ?(Z.mod_small (n + n + n)), ?(Z.mod_small (n + n + n + n)) by (unfold BASE; lia); lia.
Qed.

Lemma rank_adds d St D little rank (p : proc St D) x : 0 < rank -> inb x -> 0 <= pr_num _ _ p < 256 ->
  adler32_combine x (fst (checksum_local d St D little true rank p)) (snd (checksum_local d St D little true rank p)) =
  adler32 (bump2 x (pr_num _ _ p - 1) ((if little then 4 else 1) * pr_num _ _ p)) (flat_map (check_bytes d) (map fst (local_leaves St D p))).
Proof.
  intros R I N. rewrite local_sum. cbn [andb fst snd]. replace (rank >? 0) with true by lia. rewrite raw_small by exact N. rewrite combine_from; [reflexivity|exact I|]. unfold inb, BASE. cbn [fst snd]. destruct little; lia.
Qed.

(** It does not tell all partitions apart: if the last but one of three ranks gives all its
    leaves to the last one, which had one leaf, the value stays the same. *)
Theorem C52_collision : forall d St D T little (F F' : forest St D) p0 p1 p2 q0 q1 q2, forest_ok d St D T F -> forest_ok d St D T F' ->
  map (fun x => fst (snd x)) (all_leaves St D T (f_procs _ _ F)) = map (fun x => fst (snd x)) (all_leaves St D T (f_procs _ _ F')) ->
  f_procs _ _ F = [p0; p1; p2] -> f_procs _ _ F' = [q0; q1; q2] -> pr_num _ _ p1 < 255 ->
  pr_num _ _ p2 = 1 -> pr_num _ _ q0 = pr_num _ _ p0 -> pr_num _ _ q1 = 0 ->
  checksum_partition d St D little F = checksum_partition d St D little F'.
Proof.
  intros d St D T little F F' p0 p1 p2 q0 q1 q2 OK OK' AL E E' N1 N2 M0 M1.
  assert (LQ : forall (F : forest St D), forest_ok d St D T F -> map (fun x => fst (snd x)) (all_leaves St D T (f_procs _ _ F)) = map fst (flat_map (local_leaves St D) (f_procs _ _ F))).
  { intros G (_ & FP & _). rewrite <- (map_map snd fst). f_equal. unfold all_leaves. induction FP as [|x l H _ IH]; [reflexivity|]. cbn [flat_map]. rewrite map_app, IH, (local_leaves_ok d T x H). reflexivity. }
  rewrite !LQ in AL by assumption. rewrite E, E' in AL. cbn [flat_map] in AL. rewrite !app_nil_r, !map_app in AL.
  assert (NZ : forall (G : forest St D) p, forest_ok d St D T G -> In p (f_procs _ _ G) -> zlen (map fst (local_leaves St D p)) = pr_num _ _ p).
  { intros G p (_ & FP & _) I. rewrite Forall_forall in FP. pose proof (FP p I) as PO. rewrite zlen_map, (local_leaves_ok d T p PO), zlen_map. destruct PO as (_ & N & _). rewrite N. reflexivity. }
  assert (A0 := NZ F p0 OK). assert (A1 := NZ F p1 OK). assert (A2 := NZ F p2 OK). assert (B0 := NZ F' q0 OK'). assert (B1 := NZ F' q1 OK'). assert (B2 := NZ F' q2 OK'). rewrite E in A0, A1, A2. rewrite E' in B0, B1, B2. cbn [In] in *.
  specialize (A0 ltac:(auto)). specialize (A1 ltac:(auto)). specialize (A2 ltac:(auto)). specialize (B0 ltac:(auto)). specialize (B1 ltac:(auto)). specialize (B2 ltac:(auto)).
  apply app_eq_length in AL; [|unfold zlen in *; lia]. destruct AL as (E0 & AL). assert (Q1 : map fst (local_leaves St D q1) = []) by (destruct (map fst (local_leaves St D q1)); [reflexivity|unfold zlen in B1; cbn [length] in B1; lia]).
  rewrite Q1 in AL. cbn [app] in AL. assert (Q2 : pr_num _ _ q2 = pr_num _ _ p1 + 1) by (rewrite <- B2, <- AL; unfold zlen in *; rewrite app_length; lia).
  assert (P1 : 0 <= pr_num _ _ p1) by (unfold zlen in A1; lia).
  unfold checksum_partition. rewrite E, E'. cbn [locals comm_checksum fold_left option_map]. do 2 f_equal. change (0 + 1) with 1. change (1 + 1) with 2.
  assert (X0 : forall p, inb (fst (checksum_local d St D little true 0 p))) by (intros p; rewrite local_sum; cbn [fst]; apply adler32_inb, init_inb).
  assert (XE : fst (checksum_local d St D little true 0 p0) = fst (checksum_local d St D little true 0 q0)) by (rewrite !local_sum; cbn [fst Z.gtb Z.compare andb]; rewrite E0; reflexivity).
  rewrite XE. set (X := fst (checksum_local d St D little true 0 q0)) in *. pose proof (X0 q0) as IX. fold X in IX.
  rewrite (rank_adds d St D little 1 p1) by (try lia; exact IX). rewrite (rank_adds d St D little 1 q1) by (try lia; exact IX).
  rewrite (rank_adds d St D little 2 p2) by (try lia; apply adler32_inb, bump_inb). rewrite (rank_adds d St D little 2 q2) by (try lia; apply adler32_inb, bump_inb).
  rewrite Q1, <- AL, N2, M1, Q2. cbn [flat_map]. rewrite flat_map_app, adler32_app. f_equal. change (1 - 1) with 0. rewrite bump_second by apply bump_inb. f_equal.
  unfold adler32 at 1. cbn [fold_left]. rewrite !bump_bump. f_equal; lia.
Qed.
Print Assumptions C52_collision.

(** ** Example: four leaves, as 1 + 2 + 1 and as 1 + 0 + 3 *)
Definition c_cut (ns : list nat) (F : forest unit unit) : list (unit * list Z) :=
  (fix go ns w := match ns with [] => [] | n :: ns' => (tt, firstn (3 * n) w) :: go ns' (skipn (3 * n) w) end) ns (all_words D2 F).
Definition c_part (ns : list nat) : option (forest unit unit) :=
  match c_new (repeat tt 1) with
  | None => None
  | Some F => match pertree_of D2 1 F with
              | None => None
              | Some pt => inflate D2 unit unit 1 tt (count_quadrants (map Z.of_nat ns)) pt (map (fun x => (x, None)) (c_cut ns F))
              end
  end.
Lemma some_inj {A} (x y : A) : Some x = Some y -> x = y.
Proof. congruence. Qed.
Lemma c_part_ok ns : ns = [1; 2; 1]%nat \/ ns = [1; 0; 3]%nat -> exists F, c_part ns = Some F /\ forest_ok D2 unit unit 1 F.
Proof.
  intros H. destruct (c_ok 1 ltac:(lia)) as (F & E & OK). unfold c_part. rewrite E.
  assert (W : all_words D2 F = [0; 0; 1; 2 ^ 29; 0; 1; 0; 2 ^ 29; 1; 2 ^ 29; 2 ^ 29; 1]).
  { assert (X : option_map (all_words D2) (c_new (repeat tt 1)) = Some [0; 0; 1; 2 ^ 29; 0; 1; 0; 2 ^ 29; 1; 2 ^ 29; 2 ^ 29; 1]) by (vm_compute; reflexivity). rewrite E in X. cbn [option_map] in X. congruence. }
  destruct (C37_without_data D2 unit unit unit 1 tt F (c_cut ns F) (map Z.of_nat ns)) as (pt & F' & E1 & E2 & E3 & _).
  - lia.
  - exact OK.
  - unfold c_cut. destruct H as [-> | ->]; discriminate.
  - unfold c_cut. rewrite W. destruct H as [-> | ->]; reflexivity.
  - unfold c_cut. rewrite W. destruct H as [-> | ->]; repeat (constructor; [reflexivity|]); constructor.
  - exists F'. rewrite E1. split; [exact E2|exact E3].
Qed.
Theorem C52_separates_refuted : exists d St D T (F F' : forest St D), forest_ok d St D T F /\ forest_ok d St D T F' /\
  map (fun x => fst (snd x)) (all_leaves St D T (f_procs _ _ F)) = map (fun x => fst (snd x)) (all_leaves St D T (f_procs _ _ F')) /\
  f_gfq _ _ F <> f_gfq _ _ F' /\ forall little, checksum_partition d St D little F = checksum_partition d St D little F'.
Proof.
  destruct (c_part_ok [1; 2; 1]%nat ltac:(auto)) as (F & E & OK). destruct (c_part_ok [1; 0; 3]%nat ltac:(auto)) as (F' & E' & OK').
  exists D2, unit, unit, 1, F, F'. split; [exact OK|]. split; [exact OK'|].
  set (view := fun F : forest unit unit => (map (fun x => fst (snd x)) (all_leaves unit unit 1 (f_procs _ _ F)), checksum_partition D2 unit unit true F, checksum_partition D2 unit unit false F)).
  assert (V : option_map view (c_part [1; 2; 1]%nat) = option_map view (c_part [1; 0; 3]%nat)) by (vm_compute; reflexivity).
  assert (G : option_map (f_gfq unit unit) (c_part [1; 2; 1]%nat) = Some [0; 1; 3; 4]) by (vm_compute; reflexivity).
  assert (G' : option_map (f_gfq unit unit) (c_part [1; 0; 3]%nat) = Some [0; 1; 1; 4]) by (vm_compute; reflexivity).
  rewrite E, E' in V. rewrite E in G. rewrite E' in G'. cbn [option_map] in V, G, G'. apply some_inj in V, G, G'. unfold view in V. repeat match goal with H : (_, _) = (_, _) |- _ => apply pair_equal_spec in H; destruct H end.
  split; [assumption|]. split; [rewrite G, G'; discriminate|]. intros []; assumption.
Qed.
Print Assumptions C52_separates_refuted.
Example C52_ex_collision :
  (option_map (fun F => map (pr_num unit unit) (f_procs _ _ F)) (c_part [1; 2; 1]%nat), option_map (fun F => map (pr_num unit unit) (f_procs _ _ F)) (c_part [1; 0; 3]%nat)) =
  (Some [1; 2; 1], Some [1; 0; 3]).
Proof. vm_compute. reflexivity. Qed.
