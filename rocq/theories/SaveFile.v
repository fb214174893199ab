(** * The bytes of a saved forest, and what p4est_source_ext makes of them *)

From Coq Require Import ZArith List Bool Lia Arith ZifyBool Sorting.Sorted.
From Verif Require Import Quad Spec Interval QuadLemmas Search Adapt AdaptSpec ListLemmas RefineLemmas Tiles Partition PartLemmas PartTrees PartRecv PartGlue PartFinal PartShip Comm CommLemmas OwnerLemmas.
From Verif Require Import Pertree Cut PropertiesCut Weighted Forest ForestSpec ForestLemmas ForestAdapt ForestPart PropertiesForest PropertiesPertree Inflate InflateLemmas PropertiesInflate Valid ValidLemmas Conn Bytes ConnIO ConnIOLemmas PropertiesConnIO SaveLoad SaveLoadLemmas.
Import ListNotations.
Open Scope Z_scope.

Lemma padding_aligned a b : a mod 32 = 0 -> padding (a + b) = padding b.
Proof. intros H. unfold padding. rewrite Z.add_mod, H, Z.add_0_l, Z.mod_mod by lia. reflexivity. Qed.
Lemma padding_ends n : (n + padding n) mod 32 = 0.
Proof.
  unfold padding. rewrite Zplus_mod_idemp_r. rewrite <- (Zplus_mod_idemp_l n). replace (n mod 32 + (32 - n mod 32)) with 32 by lia. reflexivity.
Qed.

Lemma count_pertree_length {A} d gfp gfq P T (ranks : list (rk A)) l : count_pertree d gfp gfq P T ranks = Some l -> zlen l = T + 1.
Proof.
  unfold count_pertree. destruct (treecount d gfp P T) as [tc|]; [|discriminate]. destruct (gather _ _ _ _ _ _ _) as [r|]; [|discriminate]. destruct (zlen r =? T) eqn:E; [|discriminate].
  intros H. injection H as <-. unfold zlen in *. rewrite running_length. lia.
Qed.

Lemma enc8_length (l : list Z) : zlen (flat_map (enc 8) l) = 8 * zlen l.
Proof. unfold zlen. induction l as [|x l IH]; cbn [flat_map length]; [lia|]. rewrite app_length, enc_length. lia. Qed.

Lemma below_bounds {A} t (l : list (Z * A)) : 0 <= below t l <= zlen l.
Proof. unfold below, zlen. split; [lia|]. induction l as [|x l IH]; cbn [filter length]; [lia|]. destruct (fst x <? t); cbn [length]; lia. Qed.

(** two ways to cut a list *)
Lemma app_split {A} : forall (a p b q : list A), a ++ b = p ++ q -> (exists u, u <> [] /\ a = p ++ u) \/ (exists p', p = a ++ p' /\ b = p' ++ q).
Proof.
  induction a as [|x a IH]; intros p b q E; [right; exists p; auto|]. destruct p as [|y p]; [left; exists (x :: a); split; [discriminate|reflexivity]|].
  cbn [app] in E. injection E as <- E. destruct (IH _ _ _ E) as [(u & U & ->)|(p' & -> & ->)]; [left; exists u; auto|right; exists p'; auto].
Qed.

Lemma asc_last : forall l x, ascending x l = true -> x <= last l x.
Proof. induction l as [|y l IH]; intros x H; [cbn; lia|]. rewrite last_cons_any. cbn [ascending] in H. specialize (IH y ltac:(lia)). lia. Qed.

(** ** what is there if the records are read *)
  Lemma skip_need buf n s s' : skip buf n s = Some s' -> 0 <= n -> (buf = true -> n <= zlen s) /\ zlen s' = Z.max 0 (zlen s - n).
  Proof.
    unfold skip. destruct (buf && (zlen s <? n)) eqn:B; [discriminate|]. intros E Hn. injection E as <-. split; [intros ->; cbn [andb] in B; lia|]. unfold zlen. rewrite skipn_length. lia.
  Qed.
Lemma nd_bounds d : 2 <= nd d <= 3.
Proof. destruct d; cbn; lia. Qed.
Section Need.
  Variables (d : dim) (buf ld : bool) (sds : Z).
  Let X := if buf || ld then 0 else sds.
  Let cs := comb_size d sds.
  Hypothesis HSDS : 0 <= sds.

  Lemma read_record_need s w x s' : read_record d buf ld sds s = Some (w, x, s') -> cs <= zlen s + X /\ zlen s' = Z.max 0 (zlen s - cs).
  Proof.
    unfold read_record, X, cs, comb_size. pose proof (nd_bounds d) as ND. destruct (take_words 4 sdec _ s) as [(w', r)|] eqn:TW; [|discriminate]. apply take_words_length in TW. destruct TW as (TW & _).
    assert (Z1 : zlen s = (nd d + 1) * 4 + zlen r) by (unfold zlen; lia). clear TW. pose proof (zlen_nonneg r). destruct ld.
    - destruct (take (Z.to_nat sds) r) as [(y, r')|] eqn:TK; [|discriminate]. intros E. injection E as <- <- <-. apply take_some in TK. destruct TK as (-> & LY). rewrite zlen_app in *. pose proof (zlen_nonneg r'). assert (zlen y = sds) by (unfold zlen; lia). rewrite orb_true_r. lia.
    - rewrite orb_false_r. destruct (sds >? 0) eqn:G.
      + destruct (skip buf sds r) as [r'|] eqn:SK; [|discriminate]. intros E. injection E as <- <- <-. apply skip_need in SK; [|exact HSDS]. destruct SK as (K1 & K2). destruct buf; [specialize (K1 eq_refl)|]; lia.
      + intros E. injection E as <- <- <-. destruct buf; lia.
  Qed.
  Lemma read_records_need : forall n s w x s', read_records d buf ld sds (S n) s = Some (w, x, s') -> Z.of_nat (S n) * cs <= zlen s + X /\ zlen s' = Z.max 0 (zlen s - Z.of_nat (S n) * cs).
  Proof.
    assert (C0 : 0 < cs) by (unfold cs, comb_size; pose proof (nd_bounds d); lia). assert (CX : X < cs) by (unfold X, cs, comb_size; pose proof (nd_bounds d); destruct (buf || ld); lia).
    induction n as [|n IH]; intros s w x s'; cbn [read_records].
    - destruct (read_record d buf ld sds s) as [((w1, x1), s1)|] eqn:R; [|discriminate]. intros E. injection E as _ _ <-. apply read_record_need in R. lia.
    - destruct (read_record d buf ld sds s) as [((w1, x1), s1)|] eqn:R; [|discriminate]. apply read_record_need in R.
      destruct (read_records d buf ld sds (S n) s1) as [((w2, x2), s2)|] eqn:R2; cbn [read_records] in R2; rewrite R2; [|discriminate]. intros E. injection E as _ _ <-. apply (IH s1 w2 x2 s2) in R2.
      replace (Z.of_nat (S (S n)) * cs) with (cs + Z.of_nat (S n) * cs) by lia. assert (0 < Z.of_nat (S n) * cs) by (apply Z.mul_pos_pos; lia). assert (cs <= Z.of_nat (S n) * cs) by (replace cs with (1 * cs) at 1 by lia; apply Z.mul_le_mono_nonneg_r; lia). lia.
  Qed.
  Lemma load_rank_need {St} zp a b n (st : St) s r : load_rank d St buf ld sds zp a b n st s = Some r -> 0 <= zp -> 0 <= a < b -> zp + b * cs <= zlen s + X.
  Proof.
    assert (C0 : 0 < cs) by (unfold cs, comb_size; pose proof (nd_bounds d); lia). assert (CX : X < cs) by (unfold X, cs, comb_size; pose proof (nd_bounds d); destruct (buf || ld); lia).
    unfold load_rank. fold cs. intros E Hz Hab. assert (0 <= a * cs) by (apply Z.mul_nonneg_nonneg; lia). destruct (skip buf (zp + a * cs) s) as [s1|] eqn:K; [|discriminate]. apply skip_need in K; [|lia].
    replace (Z.to_nat (b - a)) with (S (Z.to_nat (b - a - 1))) in E by lia. destruct (read_records d buf ld sds _ s1) as [((ws, xs), s2)|] eqn:R; [|discriminate]. apply read_records_need in R.
    replace (Z.of_nat (S (Z.to_nat (b - a - 1)))) with (b - a) in R by lia. rewrite Z.mul_sub_distr_r in R. assert (a * cs + cs <= b * cs) by (replace (a * cs + cs) with ((a + 1) * cs) by lia; apply Z.mul_le_mono_nonneg_r; lia). lia.
  Qed.
  Lemma load_ranks_need {St} zp n s : 0 <= zp -> forall gl a (ss : list St) r, load_ranks d St buf ld sds zp n (a :: gl) ss s = Some r -> zlen gl = zlen ss -> 0 <= a < n -> ascending a gl = true -> last gl a = n ->
    zp + n * cs <= zlen s + X.
  Proof.
    intros Hz. induction gl as [|b gl IH]; intros a ss r; [cbn [last]; lia|]. destruct ss as [|st ss]; [intros _ E; unfold zlen in E; cbn in E; lia|]. cbn [load_ranks tl]. intros E EL Ha AS LA. rewrite last_cons_any in LA. cbn [ascending] in AS.
    destruct (load_rank d St buf ld sds zp a b n st s) as [i|] eqn:LR; [|discriminate]. destruct (load_ranks d St buf ld sds zp n (b :: gl) ss s) as [l|] eqn:LS; [|discriminate].
    destruct (Z.eq_dec b n) as [-> |NB].
    - apply load_rank_need in LR; [exact LR|exact Hz|lia].
    - apply (IH b ss l LS); [unfold zlen in *; cbn [length] in EL; lia| |lia|exact LA].
      assert (b <= n); [|lia]. rewrite <- LA. destruct gl as [|e gl]; [cbn; lia|]. destruct (Z.le_gt_cases b (last (e :: gl) b)) as [?|C]; [assumption|]. exfalso.
      pose proof (asc_last (e :: gl) b ltac:(lia)). lia.
  Qed.
End Need.

Lemma u64_head d (a P : Z) (b sp : bool) : 0 <= a < 2 ^ 64 -> 0 <= P < 2 ^ 31 -> Forall u64 [ondisk_format d; 4; sizeof_quadrant; a; if b then 1 else 0; if sp then P else 1].
Proof. intros. assert (0 <= ondisk_format d < 2 ^ 64) by (destruct d; vm_compute; split; congruence). repeat constructor; unfold u64, sizeof_quadrant; try assumption; try lia; destruct b, sp; lia. Qed.

Section File.
  Variable d : dim.
  Variable St : Type.
  Local Notation D := (list Z).
  Variables (version : list Z) (c : conn) (data_size : Z) (save_data save_partition : bool) (F : forest St D).
  Let T := c_nt c.
  Let sds := if save_data then data_size else 0.
  Let sd := save_data && negb (sds =? 0).
  Let L := all_leaves St D T (f_procs _ _ F).
  Let N := f_gnum _ _ F.
  Let P := zlen (f_procs _ _ F).
  Hypothesis HST : storable d c.
  Hypothesis HV : conn_is_valid d c = Some true.
  Hypothesis HVL : length version = 24%nat.
  Hypothesis HVB : Forall u8 version.
  Hypothesis HT : 0 < T.
  Hypothesis HOK : forest_ok d St D T F.
  Hypothesis HDS : 0 <= data_size < 2 ^ 64.
  Hypothesis HDL : forall x, In x L -> zlen (snd (snd x)) = data_size.
  Hypothesis HP : P < 2 ^ 31.
  Hypothesis HN : N < 2 ^ 63.

  Lemma hsd : 0 <= sds /\ (sd = false -> sds = 0).
  Proof. unfold sd, sds. destruct save_data; cbn [andb]; lia. Qed.

  Lemma sds_u64 : 0 <= sds < 2 ^ 64.
  Proof. unfold sds. destruct save_data; [exact HDS|lia]. Qed.

  Lemma recs : Forall (rec_ok d sd sds) (map snd L).
  Proof.
    apply Forall_map, Forall_forall. intros x I. split; [apply words_i32; apply (leaves_wf d St D T HT F x HOK I)|]. intros E. rewrite (HDL x I). unfold sds. unfold sd in E. destruct save_data; [reflexivity|discriminate].
  Qed.

  Definition gfq_words : list Z := if save_partition then tl (f_gfq _ _ F) else [N].
  Definition head_words (pt : list Z) : list Z := [ondisk_format d; 4; sizeof_quadrant; sds; if sd then 1 else 0; if save_partition then P else 1] ++ gfq_words ++ tl pt.
  Definition file_of (cb pt : list Z) : list Z :=
    cb ++ zeros (padding (zlen cb)) ++ flat_map (enc 8) (head_words pt) ++ zeros (padding (8 * zlen (head_words pt))) ++ flat_map (record d sd) (map snd L).

  Lemma counts_eq : map (pr_num St D) (f_procs _ _ F) = map (fun p => zlen (rank_leaves St D T p)) (f_procs _ _ F).
  Proof. apply map_ext_in. intros p I. destruct HOK as (_ & FP & _). rewrite Forall_forall in FP. destruct (FP p I) as (_ & H & _). rewrite H. reflexivity. Qed.

  Lemma gfq_spec : f_gfq _ _ F = count_quadrants (map (fun p => zlen (rank_leaves St D T p)) (f_procs _ _ F)) /\ length (f_gfq _ _ F) = S (length (f_procs _ _ F)) /\
    zget (f_gfq _ _ F) P = Some N /\ 0 <= N /\ N = zlen L /\ 0 < P.
  Proof.
    destruct HOK as (NE & FP & _ & _ & GN & GQ & _). rewrite counts_eq in GQ. split; [exact GQ|]. split; [rewrite GQ; unfold count_quadrants; rewrite running_length, map_length; reflexivity|].
    assert (EN : N = zlen L) by exact GN. split; [|split; [rewrite EN; apply zlen_nonneg|split; [exact EN|unfold P, zlen; destruct (f_procs St D F); [congruence|cbn [length]; lia]]]].
    rewrite GQ. rewrite <- (map_map (rank_leaves St D T) zlen). unfold P, zlen at 2. rewrite <- (map_length (rank_leaves St D T)). rewrite gfq_get by lia. rewrite firstn_all, EN. do 2 f_equal. unfold L, all_leaves. rewrite flat_map_concat_map. reflexivity.
  Qed.

  Lemma file_spec : exists cb pt, sink d version c = Some cb /\ (forall rest, source d (cb ++ rest) = Got c rest) /\
    pt = 0 :: tl pt /\ zlen pt = T + 1 /\ (forall t, 0 <= t <= T -> zget pt t = Some (below t L)) /\
    save d St version c data_size save_data save_partition F = Some (file_of cb pt).
  Proof.
    destruct (round_trip d version c HST HV HVL HVB) as (cb & E1 & _ & E2). destruct (pertree_ok d T F HT HOK) as (pt & E3 & E4). exists cb, pt. split; [exact E1|]. split; [exact E2|].
    assert (PL : zlen pt = T + 1) by (apply (count_pertree_length _ _ _ _ _ _ _ E3)).
    assert (P0 : pt = 0 :: tl pt). { specialize (E4 0 ltac:(lia)). destruct pt as [|a pt]; [discriminate E4|]. cbn in E4. injection E4 as ->. cbn [tl]. f_equal. unfold below. assert (G : forall x, In x L -> 0 <= fst x < T) by (intros x I; apply (leaves_wf d St D T HT F x HOK I)).
      fold L. clear - G. revert G. generalize L. intros l G. induction l as [|x l IH]; [reflexivity|]. cbn [filter]. replace (fst x <? 0) with false by (pose proof (G x (or_introl eq_refl)); lia). apply IH. intros y I. apply G. right. exact I. }
    split; [exact P0|]. split; [exact PL|]. split; [exact E4|].
    unfold save. fold sds. fold sd. fold P. fold T. unfold pertree_of in E3. fold P in E3. rewrite E3, E1. destruct gfq_spec as (GQ & GL & GP & _).
    assert (EH : header d sd save_partition sds P (f_gfq St D F) pt = head_words pt) by (unfold header, head_words, gfq_words; rewrite GP; reflexivity). rewrite EH.
    set (H1 := cb ++ zeros (padding (zlen cb))). assert (A1 : zlen H1 mod 32 = 0) by (unfold H1; rewrite zlen_app, zeros_length by apply padding_nonneg; apply padding_ends).
    rewrite (zlen_app H1), enc8_length, padding_aligned by exact A1.
    set (H2 := (H1 ++ flat_map (enc 8) (head_words pt)) ++ zeros (padding (8 * zlen (head_words pt)))).
    pose proof (save_ranks_ok d St sd sds (f_gfq _ _ F) T H2 hsd (f_procs _ _ F) []) as SR. cbn [app] in SR. change (zlen (@nil (proc St D))) with 0 in SR. rewrite app_nil_r in SR.
    rewrite SR; [|apply HOK|exact recs|exact GQ]. fold L. unfold file_of, H2, H1. rewrite <- !app_assoc. reflexivity.
  Qed.

  Lemma running_asc : forall cs a, Forall (fun n => 0 <= n) cs -> ascending a (tl (running a cs)) = true.
  Proof.
    induction cs as [|n cs IH]; intros a H; [reflexivity|]. inversion H as [|? ? H1 H2]; subst. cbn [running tl]. rewrite running_cons. cbn [ascending]. rewrite IH by exact H2. lia.
  Qed.
  Lemma ascending_between : forall l a x, ascending a l = true -> In x l -> a <= x <= last l a.
  Proof.
    induction l as [|b l IH]; intros a x H I; [destruct I|]. cbn [ascending] in H. rewrite last_cons_any. assert (LB : b <= last l b) by (destruct l as [|e l]; [cbn; lia|]; destruct (IH b e ltac:(lia) (or_introl eq_refl)); cbn [last] in *; lia).
    destruct I as [<-|I]; [lia|]. specialize (IH b x ltac:(lia) I). lia.
  Qed.

  Lemma gfq_words_ok : ascending 0 gfq_words = true /\ last gfq_words 0 = N /\ zlen gfq_words = (if save_partition then P else 1) /\ gfq_words <> [].
  Proof.
    destruct gfq_spec as (GQ & GL & GP & N0 & NL & PP). unfold gfq_words. destruct save_partition; [|split; [cbn; lia|split; [reflexivity|split; [reflexivity|discriminate]]]].
    split; [rewrite GQ; apply running_asc, Forall_map, Forall_forall; intros; apply zlen_nonneg|].
    destruct (f_gfq St D F) as [|a l] eqn:E; [cbn in GL; lia|]. cbn [tl]. cbn [length] in GL.
    assert (ZL : zlen l = P) by (unfold P, zlen; lia). split; [|split; [exact ZL|intros ->; unfold zlen in ZL; cbn in ZL; lia]].
    rewrite zget_nth in GP by lia. destruct (exists_last (l := l)) as (l0 & z & EL); [intros ->; unfold zlen in ZL; cbn in ZL; lia|]. rewrite EL in *. rewrite last_last. unfold zlen in ZL. rewrite app_length in ZL. cbn [length] in ZL.
    replace (Z.to_nat P) with (S (length l0)) in GP by lia. cbn [nth_error] in GP. rewrite nth_error_app2, Nat.sub_diag in GP by lia. cbn in GP. congruence.
  Qed.

  Lemma u64_small x : 0 <= x <= N -> u64 x /\ to_gloidx x = x.
  Proof. intros H. split; [unfold u64; lia|apply to_gloidx_id; lia]. Qed.
  Lemma map_id_in (f : Z -> Z) l : (forall x, In x l -> f x = x) -> map f l = l.
  Proof. intros H. rewrite <- (map_id l) at 2. apply map_ext_in. exact H. Qed.

  Section Read.
    Variable St' : Type.
    Variables (prec : Z) (buf : bool) (junk : list Z) (nodata : list Z) (ld0 auto : bool) (ss : list St') (tail : list Z).
    Let ld := ld0 && negb (data_size =? 0).
    Hypothesis HLD : ld0 = true -> save_data = true.
    Hypothesis HNP : auto = false -> zlen ss = (if save_partition then P else 1).
    Hypothesis HSS : 0 < zlen ss < 2 ^ 31.
    Hypothesis HPR : auto = true -> 53 <= prec <= 64.

    Definition new_gfq : list Z := if auto then equal_gfq prec N (zlen ss) else 0 :: gfq_words.
    Definition strip (x : Z * (quad * D)) : Z * (quad * D) := if ld then x else (fst x, (fst (snd x), nodata)).

    Lemma new_gfq_ok : exists l, new_gfq = 0 :: l /\ ascending 0 l = true /\ last l 0 = N /\ zlen l = zlen ss.
    Proof.
      destruct gfq_spec as (_ & _ & _ & N0 & NL & PP). unfold new_gfq. destruct auto eqn:A.
      - destruct (equal_gfq_ok prec N (zlen ss) (HPR eq_refl) ltac:(lia) HSS) as (l & E1 & E2 & E3 & E4 & _). exists l. auto.
      - destruct gfq_words_ok as (A1 & A2 & A3 & _). exists gfq_words. rewrite (HNP eq_refl). auto.
    Qed.

    Lemma load_spec cb pt : (forall rest, source d (cb ++ rest) = Got c rest) -> pt = 0 :: tl pt -> zlen pt = T + 1 -> (forall t, 0 <= t <= T -> zget pt t = Some (below t L)) ->
      exists F', load d St' prec buf (plain_read junk) nodata data_size ld0 auto ss (file_of cb pt ++ tail) = Loaded c F' /\
        forest_ok d St' D T F' /\ map (pr_s St' D) (f_procs _ _ F') = ss /\ f_gfq _ _ F' = new_gfq /\
        all_leaves St' D T (f_procs _ _ F') = map strip L /\ f_rev _ _ F' = 0 /\
        map (rank_leaves St' D T) (f_procs _ _ F') = segs_of (diffs 0 (List.tl new_gfq)) (map strip L).
    Proof.
      intros SRC P0 PL PG. destruct gfq_spec as (GQ & GL & GP & N0 & NL & PP). destruct gfq_words_ok as (A1 & A2 & A3 & A4). destruct new_gfq_ok as (gl & G1 & G2 & G3 & G4).
      assert (SDS : ld = true -> sd = true /\ sds = data_size).
      { unfold ld, sd, sds. intros E. apply andb_prop in E. destruct E as (E & E'). rewrite (HLD E). split; [exact E'|reflexivity]. }
      unfold load. fold ld. unfold file_of at 1. rewrite <- !app_assoc. rewrite SRC. unfold file_of. rewrite !zlen_app.
      match goal with |- context [skip buf (padding ?n)] => replace n with (zlen cb) by lia end.
      rewrite skip_app by (rewrite zeros_length by apply padding_nonneg; reflexivity). unfold head_words at 1. rewrite flat_map_app, <- app_assoc.
      set (h6 := [ondisk_format d; 4; sizeof_quadrant; sds; if sd then 1 else 0; if save_partition then P else 1]).
      assert (U6 : Forall u64 h6) by (apply u64_head; [exact sds_u64|clear - PP HP; lia]).
      match goal with |- context [flat_map (enc 8) h6 ++ ?X] => pose proof (take_words_app 8 dec u64 (enc 8) coded_u64 h6 X U6) as TW end.
      change (length h6) with 6%nat in TW. rewrite TW. clear TW.
      change (nth 0 h6 0) with (ondisk_format d). change (nth 1 h6 0) with 4. change (nth 2 h6 0) with sizeof_quadrant. change (nth 3 h6 0) with sds. change (nth 4 h6 0) with (if sd then 1 else 0). change (nth 5 h6 0) with (if save_partition then P else 1).
      rewrite !Z.eqb_refl. cbn [andb negb].
      replace (ld && negb ((sds =? data_size) && negb (to_topidx (if sd then 1 else 0) =? 0))) with false.
      2: { clear - SDS. destruct ld; [|reflexivity]. destruct (SDS eq_refl) as (E1 & E2). rewrite E1, E2, Z.eqb_refl. reflexivity. }
      assert (TP : to_topidx (if save_partition then P else 1) = (if save_partition then P else 1)) by (apply to_topidx_id; destruct save_partition; lia). rewrite TP.
      replace (negb (auto || (zlen ss =? (if save_partition then P else 1)))) with false by (destruct auto; [reflexivity|rewrite (HNP eq_refl), Z.eqb_refl; reflexivity]).
      replace ((if save_partition then P else 1) <? 1) with false by (destruct save_partition; lia).
      assert (GB : forall x, In x gfq_words -> 0 <= x <= N) by (intros x I; rewrite <- A2; apply ascending_between; assumption).
      assert (TB : forall x, In x (tl pt) -> 0 <= x <= N).
      { intros x I. apply In_nth_error in I. destruct I as (i & E). assert (LI : (i < length (tl pt))%nat) by (apply nth_error_Some; congruence). rewrite P0 in PL. unfold zlen in PL. cbn [length] in PL.
        specialize (PG (Z.of_nat i + 1) ltac:(lia)). rewrite zget_nth in PG by lia. replace (Z.to_nat (Z.of_nat i + 1)) with (S i) in PG by lia. rewrite P0 in PG. cbn [nth_error] in PG. rewrite E in PG. injection PG as ->. rewrite NL. apply below_bounds. }
      rewrite flat_map_app, <- app_assoc.
      assert (PART : (if auto then match skip buf (((if save_partition then P else 1) - 1) * 8) (flat_map (enc 8) gfq_words ++ flat_map (enc 8) (tl pt) ++ zeros (padding (8 * zlen (head_words pt))) ++ flat_map (record d sd) (map snd L) ++ tail) with
           | None => None
           | Some s4 => match take_words 8 dec 1 s4 with
                        | Some ([n], s5) => Some (equal_gfq prec (to_gloidx n) (zlen ss), s5)
                        | _ => None
                        end
           end
         else let '(_, l, s4) := plain_read junk (length ss) (flat_map (enc 8) gfq_words ++ flat_map (enc 8) (tl pt) ++ zeros (padding (8 * zlen (head_words pt))) ++ flat_map (record d sd) (map snd L) ++ tail) in Some (0 :: map to_gloidx l, s4)) =
         Some (new_gfq, flat_map (enc 8) (tl pt) ++ zeros (padding (8 * zlen (head_words pt))) ++ flat_map (record d sd) (map snd L) ++ tail)).
      { unfold new_gfq. destruct auto eqn:A.
        - destruct (exists_last A4) as (g0 & z & EG). rewrite EG in A2, A3 |- *. rewrite last_last in A2. rewrite flat_map_app, <- app_assoc. rewrite skip_app by (rewrite enc8_length; rewrite zlen_app in A3; change (zlen [z]) with 1 in A3; lia).
          destruct (u64_small N ltac:(lia)) as (U & E). subst z. rewrite (take_words_app 8 dec u64 (enc 8) coded_u64 [N]) by (constructor; [exact U|constructor]). rewrite E. reflexivity.
        - unfold plain_read. replace (length ss) with (length gfq_words) by (specialize (HNP eq_refl); unfold zlen in *; lia).
          rewrite (take_words_app 8 dec u64 (enc 8) coded_u64) by (apply Forall_forall; intros x I; apply u64_small, GB, I). rewrite map_id_in by (intros x I; apply u64_small, GB, I). reflexivity. }
      rewrite PART. clear PART. fold T. replace (Z.to_nat T) with (length (tl pt)) by (rewrite P0 in PL; unfold zlen in PL; cbn [length] in PL; lia).
      rewrite (take_words_app 8 dec u64 (enc 8) coded_u64) by (apply Forall_forall; intros x I; apply u64_small, TB, I). rewrite map_id_in by (intros x I; apply u64_small, TB, I). rewrite <- P0.
      assert (BT : below T L = N).
      { rewrite NL. assert (G : forall x, In x L -> 0 <= fst x < T) by (intros x I; apply (leaves_wf d St D T HT F x HOK I)). clear - G. revert G. generalize L. intros l G. unfold below. induction l as [|x l IH]; [reflexivity|]. cbn [filter]. replace (fst x <? T) with true by (pose proof (G x (or_introl eq_refl)); lia). unfold zlen in *. cbn [length]. rewrite Nat2Z.inj_succ, IH by (intros y I; apply G; right; exact I). lia. }
      rewrite (PG T) by lia. rewrite BT.
      assert (GN : zget new_gfq (zlen ss) = Some N).
      { rewrite G1. rewrite zget_nth by lia. destruct (exists_last (l := gl)) as (l0 & z & EL); [intros ->; unfold zlen in G4; cbn in G4; unfold zlen in HSS; lia|]. rewrite EL in G3, G4 |- *. rewrite last_last in G3. unfold zlen in G4 |- *. rewrite app_length in G4. cbn [length] in G4.
        replace (Z.to_nat (Z.of_nat (length ss))) with (S (length l0)) by lia. cbn [nth_error]. rewrite nth_error_app2, Nat.sub_diag by lia. cbn. congruence. }
      rewrite GN, Z.eqb_refl. cbn [negb]. replace (ascending 0 new_gfq) with true by (rewrite G1; cbn [ascending]; rewrite G2; reflexivity). cbn [negb].
      set (cs := diffs 0 gl). set (segs := segs_of cs L). assert (CN : Forall (fun n => 0 <= n) cs) by (apply diffs_nonneg; exact G2). assert (CS : fold_right Z.add 0 cs = zlen L) by (unfold cs; rewrite diffs_sum, G3; lia).
      destruct (segs_of_ok cs L CN CS) as (SC & SZ). fold segs in SC, SZ.
      assert (EG : new_gfq = count_quadrants (map zlen segs)) by (rewrite SZ, G1; unfold count_quadrants, cs; rewrite running_diffs; reflexivity).
      assert (LS : length ss = length segs) by (rewrite <- (map_length zlen segs), SZ; unfold cs; rewrite diffs_length; unfold zlen in *; lia).
      pose proof (load_ranks_ok d sd sds hsd buf ld) as LR. specialize (LR (fun E => proj1 (SDS E)) St' (zeros (padding (8 * zlen (head_words pt)))) (padding ((6 + (if save_partition then P else 1) + T) * 8)) N tail).
      assert (HL : 8 * zlen (head_words pt) = (6 + (if save_partition then P else 1) + T) * 8).
      { unfold head_words. rewrite !zlen_app, A3. change (zlen [ondisk_format d; 4; sizeof_quadrant; sds; if sd then 1 else 0; if save_partition then P else 1]) with 6. rewrite P0 in PL. unfold zlen in PL |- *. cbn [length] in PL. lia. }
      rewrite <- HL in LR |- *. rewrite zeros_length in LR by apply padding_nonneg. specialize (LR eq_refl segs [] ss LS). cbn [app] in LR. change (zlen (@nil (quad * list Z))) with 0 in LR. rewrite SC in LR. fold (count_quadrants (map zlen segs)) in LR. rewrite <- EG in LR.
      rewrite LR; [|exact recs|rewrite NL, zlen_map; reflexivity]. clear LR.
      (* inflate *)
      set (segs' := map (map strip) segs). assert (SC' : concat segs' = map strip L) by (unfold segs'; rewrite <- concat_map, SC; reflexivity).
      assert (SF : forall x, fst (strip x) = fst x /\ fst (snd (strip x)) = fst (snd x)) by (intros x; unfold strip; destruct ld; split; reflexivity).
      assert (SZ' : map zlen segs' = map zlen segs) by (unfold segs'; rewrite map_map; apply map_ext; intros s; apply zlen_map).
      assert (EI : ins_of d St' D ld ss segs = ins_of d St' D ld ss segs').
      { unfold ins_of, segs'. generalize ss. clearbody segs. clear - SF. induction segs as [|s r IH]; intros ss'; destruct ss' as [|st ss']; [reflexivity..|]. cbn [combine map fst snd]. rewrite IH. f_equal. f_equal; [f_equal|].
        - unfold wordsof. rewrite !flat_map_concat_map, !map_map. f_equal. apply map_ext. intros x. rewrite (proj2 (SF x)). reflexivity.
        - unfold dataof. unfold strip. destruct ld; [rewrite map_id; reflexivity|reflexivity]. }
      rewrite EI. assert (LF : map fst (map strip L) = map fst L) by (rewrite map_map; apply map_ext; intros x; apply SF).
      destruct (inflate_spec d St' D T nodata ld segs' pt) with (ss := ss) as (F' & E & OK' & R1 & R2 & R3 & R4).
      + rewrite SC'. destruct HOK as (_ & _ & SO & _). fold L in SO. clear - SO SF. induction SO as [|x l _ IH FA]; [constructor|]. cbn [map]. constructor; [exact IH|]. rewrite Forall_map. eapply Forall_impl; [|exact FA]. intros y. rewrite (proj1 (SF x)), (proj1 (SF y)). auto.
      + rewrite SC'. intros y I. apply in_map_iff in I. destruct I as (x & <- & I). rewrite (proj1 (SF x)). apply (leaves_wf d St D T HT F x HOK I).
      + exact HT.
      + rewrite SC'. intros t Ht. pose proof (tree_leaves d St D T HT F t HOK Ht) as TL. fold L in TL. replace (map fst (ofl t (map strip L))) with (map fst (ofl t L)); [exact TL|].
        clear - SF. unfold ofl. induction L as [|x l IH]; [reflexivity|]. cbn [map filter]. rewrite (proj1 (SF x)). destruct (fst x =? t); cbn [map]; [rewrite IH, (proj2 (SF x)); reflexivity|exact IH].
      + intros B. rewrite SC'. apply Forall_map, Forall_forall. intros x _. unfold strip. rewrite B. reflexivity.
      + rewrite SC'. intros t Ht. rewrite (PG t Ht). f_equal. apply below_labels. symmetry. exact LF.
      + unfold segs'. destruct segs; [|discriminate]. destruct ss; [unfold zlen in HSS; cbn in HSS; lia|discriminate LS].
      + unfold segs'. rewrite map_length. exact LS.
      + rewrite SZ' in E, R3. rewrite EG. rewrite E. rewrite (is_valid_accepts d St' D T HT F' OK') by lia. exists F'. split; [reflexivity|]. split; [exact OK'|]. split; [exact R2|]. split; [exact R3|].
        split; [unfold all_leaves; rewrite flat_map_concat_map; change (fun p => loc_from 0 (Z.to_nat T) (lvs St' D p)) with (rank_leaves St' D T); rewrite R1; exact SC'|]. split; [exact R4|].
        rewrite R1. rewrite <- EG, G1. cbn [List.tl]. fold cs. unfold segs', segs. generalize L. clearbody cs. clear. induction cs as [|n cs IH]; intros l; [reflexivity|]. cbn [segs_of map]. rewrite IH, firstn_map, skipn_map. reflexivity.
    Qed.

    Lemma load_prefix cb pt p q : (forall rest, source d (cb ++ rest) = Got c rest) -> (forall p q, cb = p ++ q -> q <> [] -> source d p = Null) ->
      pt = 0 :: tl pt -> zlen pt = T + 1 -> (forall t, 0 <= t <= T -> zget pt t = Some (below t L)) -> 0 < N ->
      file_of cb pt = p ++ q -> (if buf || ld then 0 else sds) < zlen q ->
      load d St' prec buf (plain_read junk) nodata data_size ld0 auto ss p = Aborted.
    Proof.
      intros SRC TR P0 PL PG NP EP QP. destruct gfq_spec as (GQ & GL & GP & N0 & NL & PP). destruct gfq_words_ok as (A1 & A2 & A3 & A4). destruct new_gfq_ok as (gl & G1 & G2 & G3 & G4).
      assert (SD0 : 0 <= sds) by apply hsd.
      assert (SDS : ld = true -> sd = true /\ sds = data_size).
      { unfold ld, sd, sds. intros E. apply andb_prop in E. destruct E as (E & E'). rewrite (HLD E). split; [exact E'|reflexivity]. }
      unfold load. fold ld. unfold file_of in EP.
      destruct (app_split cb p _ _ EP) as [(u & U & E)|(p1 & -> & E1)]; [rewrite (TR p u E U); reflexivity|]. rewrite SRC. rewrite zlen_app.
      match goal with |- context [skip buf (padding ?n)] => replace n with (zlen cb) by lia end.
      destruct (app_split _ p1 _ _ E1) as [(u & U & E)|(p2 & -> & E2)].
      { unfold skip. destruct (buf && (zlen p1 <? padding (zlen cb))) eqn:B; [reflexivity|]. rewrite skipn_all2; [reflexivity|].
        apply (f_equal zlen) in E. rewrite zlen_app, zeros_length in E by apply padding_nonneg. pose proof (zlen_nonneg u). unfold zlen in *. lia. }
      rewrite skip_app by (rewrite zeros_length by apply padding_nonneg; reflexivity). unfold head_words at 1 in E2. rewrite !flat_map_app, <- !app_assoc in E2.
      set (h6 := [ondisk_format d; 4; sizeof_quadrant; sds; if sd then 1 else 0; if save_partition then P else 1]) in *.
      assert (U6 : Forall u64 h6) by (apply u64_head; [exact sds_u64|clear - PP HP; lia]).
      assert (SHORT : forall (l : list Z) n p u r, flat_map (enc 8) l = p ++ u -> u <> [] -> length l = n -> take_words 8 dec n p = Some r -> False).
      { intros l n pp u (w, r) E UN EN TW. apply take_words_length in TW. apply (f_equal zlen) in E. rewrite enc8_length, zlen_app in E. destruct u; [contradiction|]. unfold zlen in E. cbn [length] in E. lia. }
      destruct (app_split _ p2 _ _ E2) as [(u & U & E)|(p3 & -> & E3)].
      { destruct (take_words 8 dec 6 p2) as [r|] eqn:TW; [destruct (SHORT h6 6%nat p2 u r E U eq_refl TW)|reflexivity]. }
      pose proof (take_words_app 8 dec u64 (enc 8) coded_u64 h6 p3 U6) as TW.
      change (length h6) with 6%nat in TW. rewrite TW. clear TW.
      change (nth 0 h6 0) with (ondisk_format d). change (nth 1 h6 0) with 4. change (nth 2 h6 0) with sizeof_quadrant. change (nth 3 h6 0) with sds. change (nth 4 h6 0) with (if sd then 1 else 0). change (nth 5 h6 0) with (if save_partition then P else 1).
      rewrite !Z.eqb_refl. cbn [andb negb].
      replace (ld && negb ((sds =? data_size) && negb (to_topidx (if sd then 1 else 0) =? 0))) with false.
      2: { clear - SDS. destruct ld; [|reflexivity]. destruct (SDS eq_refl) as (E1 & E2). rewrite E1, E2, Z.eqb_refl. reflexivity. }
      assert (TP : to_topidx (if save_partition then P else 1) = (if save_partition then P else 1)) by (apply to_topidx_id; destruct save_partition; lia). rewrite TP.
      replace (negb (auto || (zlen ss =? (if save_partition then P else 1)))) with false by (destruct auto; [reflexivity|rewrite (HNP eq_refl), Z.eqb_refl; reflexivity]).
      replace ((if save_partition then P else 1) <? 1) with false by (destruct save_partition; lia).
      assert (GB : forall x, In x gfq_words -> 0 <= x <= N) by (intros x I; rewrite <- A2; apply ascending_between; assumption).
      assert (TB : forall x, In x (tl pt) -> 0 <= x <= N).
      { intros x I. apply In_nth_error in I. destruct I as (i & E). assert (LI : (i < length (tl pt))%nat) by (apply nth_error_Some; congruence). rewrite P0 in PL. unfold zlen in PL. cbn [length] in PL.
        specialize (PG (Z.of_nat i + 1) ltac:(lia)). rewrite zget_nth in PG by lia. replace (Z.to_nat (Z.of_nat i + 1)) with (S i) in PG by lia. rewrite P0 in PG. cbn [nth_error] in PG. rewrite E in PG. injection PG as ->. rewrite NL. apply below_bounds. }
      assert (LT : length (tl pt) = Z.to_nat T) by (rewrite P0 in PL; unfold zlen in PL; cbn [length] in PL; lia).
      fold T.
      destruct (app_split _ p3 _ _ E3) as [(u & U & E)|(p4 & -> & E4)].
      { (* the partition is cut *)
        destruct auto eqn:A.
        - destruct (exists_last A4) as (g0 & z & EG). rewrite EG in A3, E. rewrite flat_map_app in E. assert (LG : (((if save_partition then P else 1) - 1) * 8) = zlen (flat_map (enc 8) g0)) by (rewrite enc8_length; rewrite zlen_app in A3; change (zlen [z]) with 1 in A3; lia). rewrite LG.
          destruct (app_split _ p3 _ _ E) as [(u' & U' & E')|(p4 & -> & E4)].
          + unfold skip. destruct (buf && _); [reflexivity|]. rewrite skipn_all2; [reflexivity|]. apply (f_equal zlen) in E'. rewrite zlen_app in E'. pose proof (zlen_nonneg u'). unfold zlen in *. lia.
          + rewrite skip_app by reflexivity. destruct (take_words 8 dec 1 p4) as [r|] eqn:TW; [destruct (SHORT [z] 1%nat p4 u r E4 U eq_refl TW)|reflexivity].
        - unfold plain_read. destruct (take_words 8 dec (length ss) p3) as [r|] eqn:TW.
          + exfalso. apply (SHORT gfq_words (length ss) p3 u r E U); [specialize (HNP eq_refl); unfold zlen in *; lia|exact TW].
          + replace (Z.to_nat T) with (S (Z.to_nat (T - 1))) by lia. reflexivity. }
      assert (PART : (if auto then match skip buf (((if save_partition then P else 1) - 1) * 8) (flat_map (enc 8) gfq_words ++ p4) with
           | None => None
           | Some s4 => match take_words 8 dec 1 s4 with
                        | Some ([n], s5) => Some (equal_gfq prec (to_gloidx n) (zlen ss), s5)
                        | _ => None
                        end
           end
         else let '(_, l, s4) := plain_read junk (length ss) (flat_map (enc 8) gfq_words ++ p4) in Some (0 :: map to_gloidx l, s4)) =
         Some (new_gfq, p4)).
      { unfold new_gfq. destruct auto eqn:A.
        - destruct (exists_last A4) as (g0 & z & EG). rewrite EG in A2, A3 |- *. rewrite last_last in A2. rewrite flat_map_app, <- app_assoc. rewrite skip_app by (rewrite enc8_length; rewrite zlen_app in A3; change (zlen [z]) with 1 in A3; lia).
          destruct (u64_small N ltac:(lia)) as (U & E). subst z. rewrite (take_words_app 8 dec u64 (enc 8) coded_u64 [N]) by (constructor; [exact U|constructor]). rewrite E. reflexivity.
        - unfold plain_read. replace (length ss) with (length gfq_words) by (specialize (HNP eq_refl); unfold zlen in *; lia).
          rewrite (take_words_app 8 dec u64 (enc 8) coded_u64) by (apply Forall_forall; intros x I; apply u64_small, GB, I). rewrite map_id_in by (intros x I; apply u64_small, GB, I). reflexivity. }
      rewrite PART. clear PART. rewrite <- LT.
      destruct (app_split _ p4 _ _ E4) as [(u & U & E)|(p5 & -> & E5)].
      { destruct (take_words 8 dec (length (tl pt)) p4) as [r|] eqn:TW; [destruct (SHORT (tl pt) _ p4 u r E U eq_refl TW)|reflexivity]. }
      rewrite (take_words_app 8 dec u64 (enc 8) coded_u64) by (apply Forall_forall; intros x I; apply u64_small, TB, I). rewrite map_id_in by (intros x I; apply u64_small, TB, I). rewrite <- P0.
      assert (BT : below T L = N).
      { rewrite NL. assert (G : forall x, In x L -> 0 <= fst x < T) by (intros x I; apply (leaves_wf d St D T HT F x HOK I)). clear - G. revert G. generalize L. intros l G. unfold below. induction l as [|x l IH]; [reflexivity|]. cbn [filter]. replace (fst x <? T) with true by (pose proof (G x (or_introl eq_refl)); lia). unfold zlen in *. cbn [length]. rewrite Nat2Z.inj_succ, IH by (intros y I; apply G; right; exact I). lia. }
      rewrite (PG T) by lia. rewrite BT.
      assert (GN : zget new_gfq (zlen ss) = Some N).
      { rewrite G1. rewrite zget_nth by lia. destruct (exists_last (l := gl)) as (l0 & z & EL); [intros ->; unfold zlen in G4; cbn in G4; unfold zlen in HSS; lia|]. rewrite EL in G3, G4 |- *. rewrite last_last in G3. unfold zlen in G4 |- *. rewrite app_length in G4. cbn [length] in G4.
        replace (Z.to_nat (Z.of_nat (length ss))) with (S (length l0)) by lia. cbn [nth_error]. rewrite nth_error_app2, Nat.sub_diag by lia. cbn. congruence. }
      rewrite GN, Z.eqb_refl. cbn [negb]. replace (ascending 0 new_gfq) with true by (rewrite G1; cbn [ascending]; rewrite G2; reflexivity). cbn [negb].
      assert (HL : 8 * zlen (head_words pt) = (6 + (if save_partition then P else 1) + T) * 8).
      { unfold head_words. rewrite !zlen_app, A3. change (zlen [ondisk_format d; 4; sizeof_quadrant; sds; if sd then 1 else 0; if save_partition then P else 1]) with 6. rewrite P0 in PL. unfold zlen in PL |- *. cbn [length] in PL. lia. }
      rewrite <- HL. destruct (load_ranks _ _ _ _ _ _ _ _ _ _) as [ins|] eqn:LR; [exfalso|reflexivity].
      rewrite G1 in LR. apply load_ranks_need in LR; [|exact SD0|apply padding_nonneg|lia|lia|exact G2|exact G3].
      apply (f_equal zlen) in E5. rewrite !zlen_app, zeros_length in E5 by apply padding_nonneg. rewrite (records_length d sd sds hsd) in E5 by exact recs. rewrite zlen_map, <- NL in E5. lia.
    Qed.
  End Read.
End File.
