(** * Lemmas on writing and reading a forest *)

From Coq Require Import ZArith List Bool Lia Arith ZifyBool Sorting.Sorted.
From Verif Require Import Quad Spec Interval QuadLemmas Search Adapt AdaptSpec ListLemmas RefineLemmas Tiles Partition PartLemmas PartTrees PartRecv PartGlue PartFinal PartShip Comm CommLemmas OwnerLemmas.
From Verif Require Import Pertree Cut PropertiesCut Weighted Forest ForestSpec ForestLemmas ForestAdapt ForestPart PropertiesForest PropertiesPertree Inflate InflateLemmas PropertiesInflate Valid ValidLemmas Conn Bytes ConnIO ConnIOLemmas SaveLoad.
Import ListNotations.
Open Scope Z_scope.

Lemma padding_nonneg n : 0 <= padding n < 32.
Proof. unfold padding. apply Z.mod_pos_bound. lia. Qed.
Lemma zeros_length n : 0 <= n -> zlen (zeros n) = n.
Proof. intros H. unfold zeros, zlen. rewrite repeat_length. lia. Qed.
Lemma zlen_nonneg {A} (l : list A) : 0 <= zlen l.
Proof. unfold zlen. lia. Qed.

Lemma skipn_app_exact {A} (a b : list A) n : n = length a -> skipn n (a ++ b) = b.
Proof. intros ->. rewrite skipn_app, skipn_all, Nat.sub_diag. reflexivity. Qed.

Lemma skip_app buf a b n : n = zlen a -> skip buf n (a ++ b) = Some b.
Proof.
  intros ->. unfold skip. replace (zlen (a ++ b) <? zlen a) with false by (rewrite zlen_app; pose proof (zlen_nonneg b); lia). rewrite andb_false_r.
  rewrite skipn_app_exact by (unfold zlen; lia). reflexivity.
Qed.

Lemma running_cons c s : running s c = s :: tl (running s c).
Proof. destruct c; reflexivity. Qed.

Lemma words_i32 d q : wf d q -> Forall i32 (words d q).
Proof.
  intros W. pose proof (wf_qin d q W) as C. destruct W as (L & _). unfold qin, inroot in C. unfold words, i32. destruct d; cbn [is3 app]; repeat constructor; lia.
Qed.

Section Records.
  Variable d : dim.
  Local Notation leaf := (quad * list Z)%type.
  Variables (sd : bool) (sds : Z).
  Hypothesis HSD : 0 <= sds /\ (sd = false -> sds = 0).

  Definition rec_ok (lf : leaf) : Prop := Forall i32 (words d (fst lf)) /\ (sd = true -> zlen (snd lf) = sds).

  Lemma enc_words_length (l : list Z) : zlen (flat_map (enc 4) l) = 4 * zlen l.
  Proof. unfold zlen. induction l as [|x l IH]; cbn [flat_map length]; [lia|]. rewrite app_length, enc_length. lia. Qed.
  Lemma words_zlen q : zlen (words d q) = nd d + 1.
  Proof. unfold zlen. rewrite words_length. destruct d; reflexivity. Qed.

  Lemma record_length lf : rec_ok lf -> zlen (record d sd lf) = comb_size d sds.
  Proof.
    intros (_ & R). unfold record, comb_size. rewrite zlen_app, enc_words_length, words_zlen. destruct sd; [rewrite R by reflexivity; lia|]. destruct HSD as (_ & H). rewrite (H eq_refl). change (zlen (@nil Z)) with 0. lia.
  Qed.
  Lemma records_length l : Forall rec_ok l -> zlen (flat_map (record d sd) l) = zlen l * comb_size d sds.
  Proof.
    induction 1 as [|x l H _ IH]; [reflexivity|]. cbn [flat_map]. rewrite zlen_app, IH, record_length by exact H. unfold zlen. cbn [length]. lia.
  Qed.

  Variables (buf ld : bool).
  Hypothesis HLD : ld = true -> sd = true.
  Definition rdata (lf : leaf) : list Z := if ld then snd lf else [].

  Lemma read_record_ok lf s : rec_ok lf -> read_record d buf ld sds (record d sd lf ++ s) = Some (words d (fst lf), rdata lf, s).
  Proof.
    intros (W & R). unfold read_record, record. rewrite <- app_assoc. replace (Z.to_nat (nd d + 1)) with (length (words d (fst lf))) by (rewrite words_length; destruct d; reflexivity).
    rewrite (take_words_app 4 sdec i32 (enc 4)); [|exact coded_i32|exact W]. unfold rdata. destruct ld.
    - rewrite (HLD eq_refl) in *. rewrite take_app; [reflexivity|]. specialize (R eq_refl). unfold zlen in R. lia.
    - destruct (sds >? 0) eqn:C.
      + destruct sd; [|destruct HSD as (_ & H); rewrite (H eq_refl) in C; discriminate]. rewrite skip_app by (symmetry; apply R; reflexivity). reflexivity.
      + destruct sd; [|reflexivity]. specialize (R eq_refl). destruct (snd lf) as [|y l]; [reflexivity|]. unfold zlen in R. cbn [length] in R. lia.
  Qed.

  Lemma read_records_ok l s : Forall rec_ok l -> read_records d buf ld sds (length l) (flat_map (record d sd) l ++ s) = Some (wordsof d (list Z) l, map rdata l, s).
  Proof.
    induction 1 as [|x l H _ IH]; [reflexivity|]. cbn [length read_records flat_map]. rewrite <- app_assoc, read_record_ok by exact H. rewrite IH. reflexivity.
  Qed.

  Variable St : Type.
  Lemma load_rank_ok (l1 l2 l3 : list leaf) pad zp a b n st tail : Forall rec_ok (l1 ++ l2 ++ l3) -> zlen pad = zp -> a = zlen l1 -> b = zlen l1 + zlen l2 -> n = b + zlen l3 ->
    load_rank d St buf ld sds zp a b n st (pad ++ flat_map (record d sd) (l1 ++ l2 ++ l3) ++ tail) = Some (st, wordsof d (list Z) l2, if ld then Some (map snd l2) else None).
  Proof.
    intros R EP EA EB EN. rewrite !Forall_app in R. destruct R as (R1 & R2 & R3). unfold load_rank. rewrite !flat_map_app, <- !app_assoc. rewrite app_assoc.
    rewrite skip_app by (rewrite zlen_app, records_length by exact R1; lia). replace (Z.to_nat (b - a)) with (length l2) by (unfold zlen in *; lia).
    rewrite read_records_ok by exact R2. assert (EM : map rdata l2 = map snd l2 \/ ld = false) by (unfold rdata; destruct ld; [left; reflexivity|right; reflexivity]).
    destruct (n >? b) eqn:C; [rewrite skip_app by (rewrite records_length by exact R3; nia)|]; (destruct ld; [destruct EM as [-> |]; [reflexivity|discriminate]|reflexivity]).
  Qed.

  Lemma load_ranks_ok pad zp n tail : zlen pad = zp -> forall (rest : list (list (Z * leaf))) (before : list leaf) ss, length ss = length rest ->
    let all := before ++ map snd (concat rest) in Forall rec_ok all -> n = zlen all ->
    load_ranks d St buf ld sds zp n (running (zlen before) (map zlen rest)) ss (pad ++ flat_map (record d sd) all ++ tail) = Some (ins_of d St (list Z) ld ss rest).
  Proof.
    intros EP. induction rest as [|S rest IH]; intros before ss Hl all R EN; (destruct ss as [|st ss]; [try discriminate Hl|try discriminate Hl]); [reflexivity|].
    cbn [map running]. rewrite (running_cons (map zlen rest)). cbn [load_ranks tl]. rewrite <- running_cons.
    assert (EA : all = before ++ map snd S ++ map snd (concat rest)) by (unfold all; cbn [concat]; rewrite map_app; reflexivity).
    assert (ZS : zlen (map snd S) = zlen S) by (unfold zlen; rewrite map_length; reflexivity).
    rewrite EA at 1. rewrite load_rank_ok; [|rewrite <- EA; exact R|exact EP|reflexivity|rewrite ZS; reflexivity|rewrite EN, EA, !zlen_app, ZS; lia].
    specialize (IH (before ++ map snd S) ss ltac:(cbn in Hl; lia)). cbv zeta in IH. rewrite <- app_assoc, <- EA in IH. rewrite zlen_app, ZS in IH. rewrite (IH R EN). reflexivity.
  Qed.
End Records.

(** ** the file that is written *)
Lemma write_at_end file b pos : pos = zlen file -> write_at file pos b = file ++ b.
Proof.
  intros ->. unfold write_at. destruct b as [|x b]; [rewrite app_nil_r; reflexivity|]. replace (Z.to_nat (zlen file)) with (length file) by (unfold zlen; lia).
  rewrite Nat.sub_diag. cbn [repeat]. rewrite app_nil_r, firstn_all, skipn_all2 by lia. rewrite app_nil_r. reflexivity.
Qed.

Lemma save_ranks_ok d St sd sds gfq T H : 0 <= sds /\ (sd = false -> sds = 0) -> forall (ps before : list (proc St (list Z))),
  Forall (proc_ok d St (list Z) T) (before ++ ps) ->
  Forall (rec_ok d sd sds) (map snd (all_leaves St (list Z) T (before ++ ps))) ->
  gfq = count_quadrants (map (fun p => zlen (rank_leaves St (list Z) T p)) (before ++ ps)) ->
  save_ranks d St sd (zlen H) (comb_size d sds) gfq (zlen before) ps (H ++ flat_map (record d sd) (map snd (all_leaves St (list Z) T before))) =
  Some (H ++ flat_map (record d sd) (map snd (all_leaves St (list Z) T (before ++ ps)))).
Proof.
  intros HSD. induction ps as [|p ps IH]; intros before OK R EG; cbn [save_ranks]; [rewrite app_nil_r; reflexivity|].
  assert (OP : proc_ok d St (list Z) T p) by (rewrite Forall_app in OK; destruct OK as (_ & OK); inversion OK; assumption).
  rewrite (local_leaves_ok d T p OP).
  assert (NEXT : all_leaves St (list Z) T (before ++ [p]) = all_leaves St (list Z) T before ++ rank_leaves St (list Z) T p) by (unfold all_leaves; rewrite flat_map_app; cbn [flat_map]; rewrite app_nil_r; reflexivity).
  assert (RB : Forall (rec_ok d sd sds) (map snd (all_leaves St (list Z) T before))).
  { unfold all_leaves in R |- *. rewrite flat_map_app, map_app, Forall_app in R. apply R. }
  assert (Z1 : zlen before + 1 = zlen (before ++ [p])) by (rewrite zlen_app; reflexivity).
  assert (STEP : forall f, f = (H ++ flat_map (record d sd) (map snd (all_leaves St (list Z) T before))) ++ flat_map (record d sd) (map snd (rank_leaves St (list Z) T p)) ->
    save_ranks d St sd (zlen H) (comb_size d sds) gfq (zlen before + 1) ps f = Some (H ++ flat_map (record d sd) (map snd (all_leaves St (list Z) T (before ++ p :: ps))))).
  { intros f ->. rewrite <- app_assoc, <- flat_map_app, <- map_app, <- NEXT, Z1. rewrite (IH (before ++ [p])); rewrite <- app_assoc; [reflexivity|exact OK|exact R|exact EG]. }
  destruct (zlen before =? 0) eqn:C; [apply STEP; reflexivity|].
  assert (GET : zget gfq (zlen before) = Some (zlen (all_leaves St (list Z) T before))).
  { rewrite EG, map_app. unfold count_quadrants. rewrite zget_nth by (apply zlen_nonneg). replace (Z.to_nat (zlen before)) with (length before) by (unfold zlen; lia).
    rewrite running_nth by (rewrite app_length, map_length; lia). f_equal. clear. rewrite Z.add_0_l. generalize (map (fun p : proc St (list Z) => zlen (rank_leaves St (list Z) T p)) (p :: ps)). intros cs. induction before as [|x l IH]; [destruct cs; reflexivity|].
    cbn [map app length pre]. rewrite IH. change (all_leaves St (list Z) T (x :: l)) with (rank_leaves St (list Z) T x ++ all_leaves St (list Z) T l). rewrite zlen_app. reflexivity. }
  rewrite GET. apply STEP. apply write_at_end. rewrite zlen_app. rewrite (records_length d sd sds HSD) by exact RB. rewrite zlen_map. reflexivity.
Qed.

(** cutting a list at the places of an ascending list *)
Fixpoint segs_of {A} (counts : list Z) (l : list A) : list (list A) :=
  match counts with [] => [] | n :: c => firstn (Z.to_nat n) l :: segs_of c (skipn (Z.to_nat n) l) end.
Lemma segs_of_ok {A} : forall counts (l : list A), Forall (fun n => 0 <= n) counts -> fold_right Z.add 0 counts = zlen l ->
  concat (segs_of counts l) = l /\ map zlen (segs_of counts l) = counts.
Proof.
  induction counts as [|n c IH]; intros l H E; cbn [segs_of concat map fold_right] in *.
  - destruct l; [auto|]. unfold zlen in E. cbn [length] in E. lia.
  - inversion H as [|? ? H1 H2]; subst. assert (SN : 0 <= fold_right Z.add 0 c) by (clear - H2; induction H2; cbn [fold_right]; lia).
    assert (LE : (Z.to_nat n <= length l)%nat) by (unfold zlen in E; lia).
    destruct (IH (skipn (Z.to_nat n) l) H2) as (E1 & E2); [unfold zlen in *; rewrite skipn_length; lia|]. rewrite E1, E2, firstn_skipn. split; [reflexivity|]. f_equal. unfold zlen. rewrite firstn_length. lia.
Qed.

Fixpoint diffs (a : Z) (l : list Z) : list Z := match l with [] => [] | b :: l' => b - a :: diffs b l' end.
Lemma running_diffs : forall l a, running a (diffs a l) = a :: l.
Proof. induction l as [|b l IH]; intros a; cbn [diffs running]; [reflexivity|]. replace (a + (b - a)) with b by lia. rewrite IH. reflexivity. Qed.
Lemma diffs_nonneg : forall l a, ascending a l = true -> Forall (fun n => 0 <= n) (diffs a l).
Proof. induction l as [|b l IH]; intros a H; cbn [diffs ascending] in *; constructor; [lia|apply IH; lia]. Qed.
Lemma diffs_sum : forall l a, fold_right Z.add 0 (diffs a l) = last l a - a.
Proof. induction l as [|b l IH]; intros a; [cbn; lia|]. cbn [diffs fold_right]. rewrite IH, last_cons_any. lia. Qed.
Lemma diffs_length : forall l a, length (diffs a l) = length l.
Proof. induction l as [|b l IH]; intros a; cbn [diffs length]; [reflexivity|]. rewrite IH. reflexivity. Qed.

(** ** the equal partition *)
Lemma zseq_In a x : forall n, In x (zseq a n) <-> a <= x < a + Z.of_nat n.
Proof. intros n. revert a. induction n as [|n IH]; intros a; cbn [zseq In]; [lia|]. rewrite IH. lia. Qed.
Lemma equal_gfq_ok prec N P : 53 <= prec <= 64 -> 0 <= N < 2 ^ 63 -> 0 < P < 2 ^ 31 ->
  exists l, equal_gfq prec N P = 0 :: l /\ ascending 0 l = true /\ last l 0 = N /\ zlen l = P /\ forall i, 0 <= i <= P -> zget (equal_gfq prec N P) i = Some (partition_cut prec N i P).
Proof.
  intros HP HN HPP. destruct (C16_cut_monotone prec N P HP HN HPP) as (C0 & CP & CM). unfold equal_gfq. eexists. split; [reflexivity|].
  assert (ZL : forall a n, length (zseq a n) = n) by (intros a n; revert a; induction n as [|n IH]; intros a; cbn [zseq length]; [reflexivity|rewrite IH; reflexivity]).
  split; [|split; [|split]].
  - assert (G : forall n a, 0 <= a -> a + Z.of_nat n = P - 1 -> ascending (partition_cut prec N a P) (map (fun i => partition_cut prec N i P) (zseq (a + 1) n) ++ [N]) = true).
    { induction n as [|n IH]; intros a Ha E; cbn [zseq map app ascending].
      - specialize (CM a P ltac:(lia) ltac:(lia)). lia.
      - rewrite IH by lia. specialize (CM a (a + 1) ltac:(lia) ltac:(lia)). lia. }
    specialize (G (Z.to_nat (P - 1)) 0 ltac:(lia) ltac:(lia)). rewrite C0 in G. exact G.
  - rewrite last_last. reflexivity.
  - unfold zlen. rewrite app_length, map_length, ZL. cbn [length]. lia.
  - intros i Hi. rewrite zget_nth by lia. destruct (Z.eq_dec i 0) as [-> |N0]; [rewrite C0; reflexivity|]. replace (Z.to_nat i) with (S (Z.to_nat (i - 1))) by lia. cbn [nth_error].
    destruct (Z.eq_dec i P) as [-> |NP].
    + rewrite nth_error_app2 by (rewrite map_length, ZL; lia). rewrite map_length, ZL, Nat.sub_diag, CP. reflexivity.
    + rewrite nth_error_app1 by (rewrite map_length, ZL; lia). rewrite nth_error_map.
      assert (ZN : forall n a k, (k < n)%nat -> nth_error (zseq a n) k = Some (a + Z.of_nat k)) by (induction n as [|n IH]; intros a k Hk; [lia|]; destruct k; cbn [zseq nth_error]; [f_equal; lia|]; rewrite IH by lia; f_equal; lia).
      rewrite ZN by lia. cbn [option_map]. do 2 f_equal. lia.
Qed.

Lemma to_gloidx_id x : 0 <= x < 2 ^ 63 -> to_gloidx x = x.
Proof. intros H. unfold to_gloidx, signed. rewrite Z.mod_small by lia. change (256 ^ Z.of_nat 8 / 2) with (2 ^ 63). replace (x <? 2 ^ 63) with true by lia. reflexivity. Qed.
