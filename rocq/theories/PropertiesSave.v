(** * C35, C36: p4est_save and p4est_load *)

From Coq Require Import ZArith List Bool Lia Arith ZifyBool Sorting.Sorted.
From Verif Require Import Quad Spec Interval QuadLemmas Search Adapt AdaptSpec ListLemmas RefineLemmas Tiles Partition PartLemmas PartTrees PartRecv PartGlue PartFinal PartShip Comm CommLemmas OwnerLemmas.
From Verif Require Import Pertree Cut PropertiesCut Weighted Forest ForestSpec ForestLemmas ForestAdapt ForestPart PropertiesForest PropertiesPertree Inflate InflateLemmas PropertiesInflate Valid ValidLemmas Conn Bytes ConnIO ConnIOLemmas PropertiesConnIO SaveLoad SaveLoadLemmas SaveFile.
Import ListNotations.
Open Scope Z_scope.

Lemma running_inj : forall l l' a, running a l = running a l' -> l = l'.
Proof.
  induction l as [|x l IH]; intros [|y l'] a E; cbn [running] in E; [reflexivity| | |].
  - rewrite running_cons in E. discriminate.
  - rewrite running_cons in E. discriminate.
  - apply (f_equal (@tl Z)) in E. cbn [tl] in E. pose proof E as E'. rewrite (running_cons l), (running_cons l') in E'. injection E' as E1 _. assert (x = y) by lia. subst y. f_equal. apply (IH _ _ E).
Qed.
Lemma concat_inj {A} : forall (l l' : list (list A)), concat l = concat l' -> map (@length _) l = map (@length _) l' -> l = l'.
Proof.
  intros l l' E L. rewrite <- (cut_data (fun x => x) l l' L); [|rewrite map_id; symmetry; exact E]. rewrite (map_ext (map (fun x => x)) (fun x => x)) by (intros; apply map_id). rewrite map_id. reflexivity.
Qed.
Lemma some_inj {A} (a b : A) : Some a = Some b -> a = b.
Proof. congruence. Qed.

Lemma gfq_facts d St T (F : forest St (list Z)) : forest_ok d St (list Z) T F ->
  f_gfq _ _ F = count_quadrants (map (fun p => zlen (rank_leaves St (list Z) T p)) (f_procs _ _ F)) /\ length (f_gfq _ _ F) = S (length (f_procs _ _ F)) /\
  0 <= f_gnum _ _ F /\ f_gnum _ _ F = zlen (all_leaves St (list Z) T (f_procs _ _ F)) /\ 0 < zlen (f_procs _ _ F).
Proof.
  intros (NE & FP & _ & _ & GN & GQ & _).
  assert (CE : map (pr_num St (list Z)) (f_procs _ _ F) = map (fun p => zlen (rank_leaves St (list Z) T p)) (f_procs _ _ F)).
  { apply map_ext_in. intros p I. rewrite Forall_forall in FP. destruct (FP p I) as (_ & H & _). rewrite H. reflexivity. }
  rewrite CE in GQ. split; [exact GQ|]. split; [rewrite GQ; unfold count_quadrants; rewrite running_length, map_length; reflexivity|].
  split; [rewrite GN; apply zlen_nonneg|]. split; [exact GN|]. unfold zlen. destruct (f_procs St (list Z) F); [congruence|cbn [length]; lia].
Qed.

(** a forest with [data_size] bytes for every leaf, on a connectivity that fits the file
    format, and the 24 bytes of the package name and version *)
Definition savable {St} (d : dim) (version : list Z) (c : conn) (data_size : Z) (F : forest St (list Z)) : Prop :=
  storable d c /\ conn_is_valid d c = Some true /\ length version = 24%nat /\ Forall u8 version /\ 0 < c_nt c /\
  forest_ok d St (list Z) (c_nt c) F /\ 0 <= data_size < 2 ^ 64 /\
  (forall x, In x (all_leaves St (list Z) (c_nt c) (f_procs _ _ F)) -> zlen (snd (snd x)) = data_size) /\
  zlen (f_procs _ _ F) < 2 ^ 31 /\ f_gnum _ _ F < 2 ^ 63.

(** a leaf of the loaded forest *)
Definition kept (load_data : bool) (nodata : list Z) (x : Z * (quad * list Z)) : Z * (quad * list Z) :=
  if load_data then x else (fst x, (fst (snd x), nodata)).

(** the ranks of the file fit the ones that read it *)
Definition fits {St St'} (F : forest St (list Z)) (prec : Z) (save_partition auto : bool) (ss : list St') : Prop :=
  0 < zlen ss < 2 ^ 31 /\
  if auto then 53 <= prec <= 64 else zlen ss = if save_partition then zlen (f_procs _ _ F) else 1.

Theorem C35_save_load : forall d St (F : forest St (list Z)) version c data_size save_data save_partition,
  savable d version c data_size F ->
  exists bytes, save d St version c data_size save_data save_partition F = Some bytes /\
  forall St' (ss : list St') prec buf junk nodata load_data auto rest,
  (load_data = true -> save_data = true) -> fits F prec save_partition auto ss ->
  exists F', load d St' prec buf (plain_read junk) nodata data_size load_data auto ss (bytes ++ rest) = Loaded c F' /\
    forest_ok d St' (list Z) (c_nt c) F' /\ map (pr_s _ _) (f_procs _ _ F') = ss /\ f_rev _ _ F' = 0 /\
    all_leaves St' (list Z) (c_nt c) (f_procs _ _ F') =
      map (kept (load_data && negb (data_size =? 0)) nodata) (all_leaves St (list Z) (c_nt c) (f_procs _ _ F)) /\
    if auto then forall i, 0 <= i <= zlen ss -> zget (f_gfq _ _ F') i = Some (partition_cut prec (f_gnum _ _ F) i (zlen ss))
    else f_gfq _ _ F' = if save_partition then f_gfq _ _ F else [0; f_gnum _ _ F].
Proof.
  intros d St F version c data_size save_data save_partition (H1 & H2 & H3 & H4 & H5 & H6 & H7 & H8 & H9 & H10).
  destruct (file_spec d St version c data_size save_data save_partition F H1 H2 H3 H4 H5 H6 H7 H8 H9) as (cb & pt & _ & E2 & E3 & E4 & E5 & E6).
  eexists. split; [exact E6|]. intros St' ss prec buf junk nodata load_data auto rest HL (HS & HF).
  destruct (load_spec d St version c data_size save_data save_partition F H3 H5 H6 H7 H8 H9 H10 St' prec buf junk nodata load_data auto ss rest HL) with (cb := cb) (pt := pt) as (F' & A1 & A2 & A3 & A4 & A5 & A6 & A7); try assumption; try (intros; subst auto; assumption).
  exists F'. split; [exact A1|]. split; [exact A2|]. split; [exact A3|]. split; [exact A6|]. split; [exact A5|].
  pose proof (gfq_facts d St (c_nt c) F H6) as (GQ & GL & N0 & NL & PP). rewrite A4. unfold new_gfq, gfq_words. destruct auto.
  - destruct (equal_gfq_ok prec (f_gnum _ _ F) (zlen ss) HF ltac:(lia) HS) as (l & _ & _ & _ & _ & G). exact G.
  - destruct save_partition; [|reflexivity]. rewrite GQ. unfold count_quadrants. rewrite running_cons. reflexivity.
Qed.

(** On the same number of ranks, with their partition and their data, every rank has what the
    rank of the same number had. *)
Theorem C35_same_ranks : forall d St (F : forest St (list Z)) version c data_size,
  savable d version c data_size F ->
  exists bytes, save d St version c data_size true true F = Some bytes /\
  forall St' (ss : list St') prec buf junk nodata rest, length ss = length (f_procs _ _ F) -> (data_size = 0 -> nodata = []) ->
  exists F', load d St' prec buf (plain_read junk) nodata data_size true false ss (bytes ++ rest) = Loaded c F' /\
    map (rank_leaves St' (list Z) (c_nt c)) (f_procs _ _ F') = map (rank_leaves St (list Z) (c_nt c)) (f_procs _ _ F) /\
    f_gfq _ _ F' = f_gfq _ _ F /\ f_gfp _ _ F' = f_gfp _ _ F /\ f_gnum _ _ F' = f_gnum _ _ F.
Proof.
  intros d St F version c data_size SV. destruct (C35_save_load d St F version c data_size true true SV) as (bytes & E1 & R). exists bytes. split; [exact E1|].
  intros St' ss prec buf junk nodata rest EL ND. destruct SV as (H1 & H2 & H3 & H4 & H5 & H6 & H7 & H8 & H9 & H10). pose proof (gfq_facts d St (c_nt c) F H6) as (GQ & GL & N0 & NL & PP).
  destruct (R St' ss prec buf junk nodata true false rest) as (F' & A1 & A2 & A3 & A4 & A5 & A6); [reflexivity|split; unfold zlen in *; lia|].
  exists F'. split; [exact A1|]. pose proof (gfq_facts d St' (c_nt c) F' A2) as (GQ' & GL' & N0' & NL' & PP').
  assert (AL : all_leaves St' (list Z) (c_nt c) (f_procs St' (list Z) F') = all_leaves St (list Z) (c_nt c) (f_procs St (list Z) F)).
  { rewrite A5. rewrite <- map_id. apply map_ext_in. intros (t, (q, x)) I. unfold kept. cbn [andb]. destruct (data_size =? 0) eqn:Z0; cbn [negb]; [|reflexivity]. specialize (H8 _ I). cbn [fst snd] in *.
    rewrite ND by lia. assert (x = []) by (destruct x; [reflexivity|unfold zlen in H8; cbn [length] in H8; lia]). subst x. reflexivity. }
  assert (RL : map (rank_leaves St' (list Z) (c_nt c)) (f_procs _ _ F') = map (rank_leaves St (list Z) (c_nt c)) (f_procs _ _ F)).
  { rewrite GQ, GQ' in A6. unfold count_quadrants in A6. apply running_inj in A6. unfold all_leaves in AL. rewrite !flat_map_concat_map in AL.
    change (fun p => loc_from 0 (Z.to_nat (c_nt c)) (lvs St' (list Z) p)) with (rank_leaves St' (list Z) (c_nt c)) in AL. change (fun p => loc_from 0 (Z.to_nat (c_nt c)) (lvs St (list Z) p)) with (rank_leaves St (list Z) (c_nt c)) in AL.
    apply concat_inj; [exact AL|]. rewrite !map_map. apply (f_equal (map Z.to_nat)) in A6. rewrite !map_map in A6. unfold zlen in A6. rewrite (map_ext _ (fun x => length (rank_leaves St' (list Z) (c_nt c) x))) in A6 by (intros; lia).
    rewrite A6. apply map_ext. intros; lia. }
  split; [exact RL|]. split; [exact A6|]. split; [|rewrite NL, NL', AL; reflexivity].
  destruct (C31_valid_forest d St _ _ F H5 H6) as (_ & _ & _ & _ & _ & _ & G3). destruct (C31_valid_forest d St' _ _ F' H5 A2) as (_ & _ & _ & _ & _ & _ & G3').
  assert (LL : length (f_procs St' _ F') = length (f_procs St _ F)) by (rewrite <- (map_length (rank_leaves St' (list Z) (c_nt c))), RL, map_length; reflexivity).
  assert (LM : forall X (G : forest X (list Z)), forest_ok d X (list Z) (c_nt c) G -> length (f_gfp _ _ G) = S (length (f_procs _ _ G))).
  { intros X G OG. pose proof (forest_dist d X (list Z) (c_nt c) H5 G OG) as (RK & _). destruct (global_partition_spec (@fst quad (list Z)) (c_nt c) _ RK) as (ms & EM & LM & _). destruct OG as (_ & _ & _ & _ & _ & _ & GG). rewrite GG in EM. injection EM as ->. rewrite LM, map_length. reflexivity. }
  apply nth_error_ext_le with (n := S (length (f_procs St (list Z) F))).
  - rewrite LM by exact A2. lia.
  - rewrite LM by exact H6. lia.
  - intros k Hk. rewrite (G3 k) by lia. rewrite (G3' k) by lia. f_equal.
    assert (AS : forall X ps, all_leaves X (list Z) (c_nt c) (skipn k ps) = concat (skipn k (map (rank_leaves X (list Z) (c_nt c)) ps))).
    { intros X ps. unfold all_leaves. rewrite flat_map_concat_map, skipn_map. reflexivity. }
    rewrite !AS, RL. reflexivity.
Qed.
Print Assumptions C35_save_load.
Print Assumptions C35_same_ranks.

(** A request that does not fit the file is refused: user data that was not saved or is of
    another size, or another number of ranks without autopartition. *)
Theorem C35_refused : forall d St (F : forest St (list Z)) version c data_size save_data save_partition bytes,
  savable d version c data_size F -> save d St version c data_size save_data save_partition F = Some bytes ->
  forall St' (ss : list St') prec buf junk nodata data_size' load_data auto rest,
  (load_data = true /\ data_size' <> 0 /\ (save_data = false \/ data_size' <> data_size)) \/
  (auto = false /\ zlen ss <> if save_partition then zlen (f_procs _ _ F) else 1) ->
  load d St' prec buf (plain_read junk) nodata data_size' load_data auto ss (bytes ++ rest) = Aborted.
Proof.
  intros d St F version c data_size save_data save_partition bytes (H1 & H2 & H3 & H4 & H5 & H6 & H7 & H8 & H9 & H10) SV St' ss prec buf junk nodata ds' load_data auto rest HR.
  destruct (file_spec d St version c data_size save_data save_partition F H1 H2 H3 H4 H5 H6 H7 H8 H9) as (cb & pt & E1 & E2 & E3 & E4 & E5 & E6).
  rewrite E6 in SV. apply some_inj in SV. subst bytes. pose proof (gfq_facts d St (c_nt c) F H6) as (GQ & GL & N0 & NL & PP).
  unfold file_of, load. rewrite <- !app_assoc. rewrite E2. match goal with |- context [skip buf (padding (zlen (cb ++ ?X) - zlen ?X))] => replace (zlen (cb ++ X) - zlen X) with (zlen cb) by (rewrite zlen_app; lia) end.
  rewrite skip_app by (rewrite zeros_length by apply padding_nonneg; reflexivity). unfold head_words. rewrite flat_map_app, <- app_assoc.
  set (sds := if save_data then data_size else 0). set (sd := save_data && negb (sds =? 0)). set (P := zlen (f_procs St (list Z) F)) in *.
  set (h6 := [ondisk_format d; 4; sizeof_quadrant; sds; if sd then 1 else 0; if save_partition then P else 1]).
  assert (U6 : Forall u64 h6) by (apply u64_head; [unfold sds; clear - H7; unfold u64; destruct save_data; lia|clear - PP H9; lia]).
  match goal with |- context [flat_map (enc 8) h6 ++ ?X] => pose proof (take_words_app 8 dec u64 (enc 8) coded_u64 h6 X U6) as TW end.
  change (length h6) with 6%nat in TW. rewrite TW. clear TW.
  change (nth 0 h6 0) with (ondisk_format d). change (nth 1 h6 0) with 4. change (nth 2 h6 0) with sizeof_quadrant. change (nth 3 h6 0) with sds. change (nth 4 h6 0) with (if sd then 1 else 0). change (nth 5 h6 0) with (if save_partition then P else 1).
  rewrite !Z.eqb_refl. cbn [andb negb].
  destruct (load_data && negb (ds' =? 0) && negb ((sds =? ds') && negb (to_topidx (if sd then 1 else 0) =? 0))) eqn:C; [reflexivity|].
  destruct HR as [(-> & K1 & K2)|(-> & K)].
  - exfalso. apply Z.eqb_neq in K1. rewrite K1 in C. cbn [negb andb] in C. apply negb_false_iff, andb_prop in C. destruct C as (C & _). apply Z.eqb_eq in C. apply Z.eqb_neq in K1. unfold sds in C. destruct K2 as [->|K2]; [congruence|]. destruct save_data; congruence.
  - assert (TP : to_topidx (if save_partition then P else 1) = (if save_partition then P else 1)) by (apply to_topidx_id; destruct save_partition; lia). rewrite TP.
    replace (zlen ss =? (if save_partition then P else 1)) with false by (symmetry; apply Z.eqb_neq; exact K). reflexivity.
Qed.
Print Assumptions C35_refused.

(** A file that is cut anywhere is refused, by an abort and without undefined behaviour.  The
    one exception is a cut in the data of the last leaf, if that data is not wanted and the
    source is a file. *)
Theorem C36_truncated : forall d St (F : forest St (list Z)) version c data_size save_data save_partition bytes,
  savable d version c data_size F -> save d St version c data_size save_data save_partition F = Some bytes ->
  forall St' (ss : list St') prec buf junk nodata load_data auto p q,
  (load_data = true -> save_data = true) -> fits F prec save_partition auto ss ->
  bytes = p ++ q -> (if buf || load_data && negb (data_size =? 0) then 0 else if save_data then data_size else 0) < zlen q ->
  load d St' prec buf (plain_read junk) nodata data_size load_data auto ss p = Aborted.
Proof.
  intros d St F version c data_size save_data save_partition bytes (H1 & H2 & H3 & H4 & H5 & H6 & H7 & H8 & H9 & H10) SV St' ss prec buf junk nodata load_data auto p q HL (HS & HF) EB HQ.
  destruct (file_spec d St version c data_size save_data save_partition F H1 H2 H3 H4 H5 H6 H7 H8 H9) as (cb & pt & E1 & E2 & E3 & E4 & E5 & E6).
  rewrite E6 in SV. apply some_inj in SV. pose proof (gfq_facts d St (c_nt c) F H6) as (GQ & GL & N0 & NL & PP).
  refine (load_prefix d St version c data_size save_data save_partition F H3 H5 H6 H7 H8 H9 H10 St' prec buf junk nodata load_data auto ss HL _ HS _ cb pt p q E2 _ E3 E4 E5 _ _ HQ); try (intros; subst auto; assumption).
  - apply (C43_truncated d version c cb H1 H2 H3 H4 E1).
  - pose proof (tree_leaves d St (list Z) (c_nt c) H5 F 0 H6 ltac:(lia)) as TL. rewrite NL. destruct (all_leaves St (list Z) (c_nt c) (f_procs St (list Z) F)) as [|x l]; [|unfold zlen; cbn [length]; lia].
    cbn in TL. exfalso. revert TL. destruct d; vm_compute; discriminate.
  - rewrite SV. exact EB.
Qed.
Print Assumptions C36_truncated.

(** ** Examples: one tree, four leaves with two bytes each, three ranks *)
Definition s_new (fuel : nat) : option (forest Z (list Z)) := new_ext D2 Z (list Z) 1 53 (fun s _ _ => (s + 1, [s; 7])) 1 1 true fuel [0; 10; 20].
Lemma s_ok : exists F, s_new 0 = Some F /\ savable D2 (repeat 46 24) full2 2 F.
Proof.
  destruct (C34_new_ext D2 Z (list Z) 1 53 (fun s _ _ => (s + 1, [s; 7])) 1 1 true [0; 10; 20] 1 4) as (n0 & H); try lia; try discriminate; [cbn; lia|vm_compute; reflexivity|].
  destruct (H n0 ltac:(lia)) as (F & E & OK & _). exists F. assert (E0 : s_new 0 = Some F) by exact E. split; [exact E0|]. destruct C43_example as (ST & V & _).
  split; [exact ST|]. split; [exact V|]. split; [reflexivity|]. split; [apply Forall_forall; intros x I; apply repeat_spec in I; subst; unfold u8; lia|]. split; [reflexivity|]. split; [exact OK|]. split; [lia|].
  assert (X : option_map (fun F => (all_leaves Z (list Z) 1 (f_procs _ _ F), zlen (f_procs _ _ F), f_gnum _ _ F)) (s_new 0) =
    Some ([(0, (mkq 0 0 0 1, [0; 7])); (0, (mkq (2 ^ 29) 0 0 1, [10; 7])); (0, (mkq 0 (2 ^ 29) 0 1, [20; 7])); (0, (mkq (2 ^ 29) (2 ^ 29) 0 1, [21; 7]))], 3, 4)) by (vm_compute; reflexivity).
  rewrite E0 in X. cbn [option_map] in X. apply some_inj in X. apply pair_equal_spec in X. destruct X as (X & X3). apply pair_equal_spec in X. destruct X as (X1 & X2).
  change (c_nt full2) with 1. rewrite X1, X2, X3. split; [|lia]. intros x I. repeat (destruct I as [<-|I]; [reflexivity|]). destruct I.
Qed.
Definition s_show (l : loaded nat) : option (list (list (Z * Z * list Z)) * list Z) :=
  match l with
  | Loaded _ F => Some (map (fun p => map (fun x => (qx (fst (snd x)), qy (fst (snd x)), snd (snd x))) (rank_leaves nat (list Z) 1 p)) (f_procs _ _ F), f_gfq _ _ F)
  | _ => None
  end.
Definition s_bytes : list Z := match s_new 0 with Some F => match save D2 Z (repeat 46 24) full2 2 true true F with Some b => b | None => [] end | None => [] end.

Example C35_ex_same : s_show (load D2 nat 53 false (plain_read []) [] 2 true false [5; 6; 7]%nat s_bytes) =
  Some ([[(0, 0, [0; 7])]; [(2 ^ 29, 0, [10; 7])]; [(0, 2 ^ 29, [20; 7]); (2 ^ 29, 2 ^ 29, [21; 7])]], [0; 1; 2; 4]).
Proof. vm_compute. reflexivity. Qed.
Example C35_ex_auto : s_show (load D2 nat 53 true (plain_read []) [99] 2 false true [5; 6]%nat (s_bytes ++ [1; 2; 3])) =
  Some ([[(0, 0, [99]); (2 ^ 29, 0, [99])]; [(0, 2 ^ 29, [99]); (2 ^ 29, 2 ^ 29, [99])]], [0; 2; 4]).
Proof. vm_compute. reflexivity. Qed.
Example C36_ex_cut : length s_bytes = 472%nat /\ Forall (fun n => load D2 nat 53 true (plain_read [1; 2; 4]) [] 2 false false [5; 6; 7]%nat (firstn n s_bytes) = Aborted) [0; 290; 300; 330; 400; 440; 471]%nat.
Proof. split; [vm_compute; reflexivity|]. repeat (constructor; [vm_compute; reflexivity|]). constructor. Qed.

(** The data of the last leaf may be missing. *)
Theorem C36_truncated_refuted : exists d St (F : forest St (list Z)) version c data_size bytes p q (ss : list nat) l F',
  savable d version c data_size F /\ save d St version c data_size true true F = Some bytes /\ fits F 53 true false ss /\
  bytes = p ++ q /\ zlen q = 2 /\ load d nat 53 false (plain_read l) [] data_size false false ss p = Loaded c F'.
Proof.
  destruct s_ok as (F & E & SV). pose proof (C35_save_load _ _ _ _ _ _ true true SV) as (b & SB & R). assert (EB : b = s_bytes) by (unfold s_bytes; rewrite E, SB; reflexivity).
  exists D2, Z, F, (repeat 46 24), full2, 2, b, (firstn 470 b), (skipn 470 b), [5; 6; 7]%nat, [].
  assert (X : exists F', load D2 nat 53 false (plain_read []) [] 2 false false [5; 6; 7]%nat (firstn 470 s_bytes) = Loaded full2 F').
  { destruct (load D2 nat 53 false (plain_read []) [] 2 false false [5; 6; 7]%nat (firstn 470 s_bytes)) as [| |c' F'] eqn:EL; [vm_compute in EL; discriminate EL..|]. exists F'. f_equal.
    assert (Y : match load D2 nat 53 false (plain_read []) [] 2 false false [5; 6; 7]%nat (firstn 470 s_bytes) with Loaded c _ => Some c | _ => None end = Some full2) by (vm_compute; reflexivity). rewrite EL in Y. apply some_inj in Y. exact Y. }
  destruct X as (F' & X). exists F'. split; [exact SV|]. split; [exact SB|]. split; [split; [unfold zlen; cbn; lia|]|].
  - assert (Y : option_map (fun F => zlen (f_procs _ _ F)) (s_new 0) = Some 3) by (vm_compute; reflexivity). rewrite E in Y. cbn [option_map] in Y. apply some_inj in Y. rewrite Y. reflexivity.
  - split; [symmetry; apply firstn_skipn|]. rewrite EB. split; [vm_compute; reflexivity|exact X].
Qed.
Print Assumptions C36_truncated_refuted.

(** The value of the read of the partition is not looked at.  With a source that fails in that
    read, loading goes on with what is in the array, here another partition. *)
Theorem C36_partition_read_refuted : exists d St (F : forest St (list Z)) version c data_size bytes (ss : list nat) rd F',
  savable d version c data_size F /\ save d St version c data_size true true F = Some bytes /\ fits F 53 true false ss /\
  (forall n s, fst (fst (rd n s)) = true) /\ load d nat 53 true rd [] data_size true false ss bytes = Loaded c F' /\ f_gfq _ _ F' <> f_gfq _ _ F.
Proof.
  destruct s_ok as (F & E & SV). pose proof (C35_save_load _ _ _ _ _ _ true true SV) as (b & SB & R). assert (EB : b = s_bytes) by (unfold s_bytes; rewrite E, SB; reflexivity).
  set (rd := fun (n : nat) (s : list Z) => (true, [4; 4; 4], skipn (8 * n) s)).
  assert (X : exists F', load D2 nat 53 true rd [] 2 true false [5; 6; 7]%nat s_bytes = Loaded full2 F' /\ f_gfq _ _ F' = [0; 4; 4; 4]).
  { destruct (load D2 nat 53 true rd [] 2 true false [5; 6; 7]%nat s_bytes) as [| |c' F'] eqn:EL; [vm_compute in EL; discriminate EL..|]. exists F'.
    assert (Y : match load D2 nat 53 true rd [] 2 true false [5; 6; 7]%nat s_bytes with Loaded c F => Some (c, f_gfq _ _ F) | _ => None end = Some (full2, [0; 4; 4; 4])) by (vm_compute; reflexivity). rewrite EL in Y. apply some_inj in Y. apply pair_equal_spec in Y. destruct Y as (-> & ->). auto. }
  destruct X as (F' & X & G). exists D2, Z, F, (repeat 46 24), full2, 2, b, [5; 6; 7]%nat, rd, F'.
  assert (Y : option_map (fun F => (zlen (f_procs _ _ F), f_gfq _ _ F)) (s_new 0) = Some (3, [0; 1; 2; 4])) by (vm_compute; reflexivity). rewrite E in Y. cbn [option_map] in Y. apply some_inj in Y. apply pair_equal_spec in Y. destruct Y as (Y1 & Y2).
  split; [exact SV|]. split; [exact SB|]. split; [split; [unfold zlen; cbn; lia|rewrite Y1; reflexivity]|]. split; [reflexivity|]. split; [rewrite EB; exact X|]. rewrite G, Y2. discriminate.
Qed.
Print Assumptions C36_partition_read_refuted.
