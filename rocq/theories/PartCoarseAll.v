(** * p4est_partition_for_coarsening on all ranks *)

From Coq Require Import ZArith List Bool Lia Arith ZifyBool Sorting.Sorted.
From Verif Require Import Quad Spec Interval QuadLemmas DescLemmas Search SearchLocal Adapt ListLemmas Partition PartLemmas PartTrees PartRecv Comm CommLemmas Forest ForestSpec ForestLemmas ForestOps PartCoarse PartCoarseLemmas PartCoarseMsg PartCoarseFam PartCoarseCorr PropertiesForest.
Import ListNotations.
Open Scope Z_scope.

Lemma mapi_opt_map {A B} (f : Z -> A -> option B) (g : Z -> B) : forall l i, (forall k x, nth_error l k = Some x -> f (i + Z.of_nat k) x = Some (g (i + Z.of_nat k))) ->
  mapi_opt f i l = Some (map g (zseq (length l) i)).
Proof.
  induction l as [|x l IH]; intros i H; cbn [mapi_opt length zseq map]; [reflexivity|]. pose proof (H 0%nat x eq_refl) as H0. rewrite Z.add_0_r in H0. rewrite H0. rewrite IH; [reflexivity|].
  intros k y E. specialize (H (S k) y E). replace (i + 1 + Z.of_nat k) with (i + Z.of_nat (S k)) by lia. exact H.
Qed.
Lemma all_some_ok {A B} (f : A -> option B) (g : A -> B) : forall l, (forall x, In x l -> f x = Some (g x)) -> all_some (map f l) = Some (map g l).
Proof. induction l as [|x l IH]; intros H; cbn [map all_some]; [reflexivity|]. rewrite (H x (or_introl eq_refl)), IH by (intros y I; apply H; right; exact I). reflexivity. Qed.
Lemma find_unique {A} (f : A -> bool) x : forall l, In x l -> f x = true -> (forall y, In y l -> f y = true -> y = x) -> find f l = Some x.
Proof.
  induction l as [|y l IH]; intros I E U; [destruct I|]. cbn [find]. destruct (f y) eqn:B; [f_equal; apply U; [left; reflexivity|exact B]|]. apply IH; [destruct I as [->|]; [congruence|assumption]|exact E|]. intros z Iz. apply U. right. exact Iz.
Qed.
Lemma new_cuts_running counts N : pre counts (length counts) = N -> new_cuts counts N = running 0 counts.
Proof.
  intros <-. unfold new_cuts. assert (NE : running 0 counts <> []) by (destruct counts; discriminate). rewrite (app_removelast_last 0 NE) at 2. do 2 f_equal.
  pose proof (running_nth counts 0 (length counts) ltac:(lia)) as E. pose proof (running_length counts 0) as L. rewrite (app_removelast_last 0 NE) in E. rewrite nth_error_app2 in E by (pose proof (app_removelast_last 0 NE) as X; apply (f_equal (@length Z)) in X; rewrite app_length, L in X; cbn [length] in X; lia).
  replace (length counts - length (removelast (running 0 counts)))%nat with 0%nat in E by (pose proof (app_removelast_last 0 NE) as X; apply (f_equal (@length Z)) in X; rewrite app_length, L in X; cbn [length] in X; lia). injection E as ->. lia.
Qed.

Section All.
  Variable d : dim.
  Variables (St D : Type).
  Variable T : Z.
  Hypothesis HT : 0 < T.
  Local Notation C := (children d).
  Variable F : forest St D.
  Hypothesis OK : forest_ok d St D T F.
  Local Notation ps := (f_procs _ _ F).
  Local Notation P := (zlen ps).
  Local Notation N := (f_gnum _ _ F).
  Variable counts : list Z.
  Hypothesis Lc : zlen counts = P.
  Hypothesis Pc : Forall (Z.le 0) counts.
  Hypothesis Tc : pre counts (length counts) = N.

  Local Notation nums := (map (pr_num St D) ps).
  Definition nwf (i : Z) : Z := pre nums (Z.to_nat i).
  Definition ncf (i : Z) : Z := pre counts (Z.to_nat i).
  Definition leaves : list (Z * quad) := map (fun x => (fst x, fst (snd x))) (all_leaves St D T ps).
  Definition prf (j : Z) : option (proc St D) := zget ps j.
  Local Notation now := (f_gfq _ _ F).
  Local Notation new := (new_cuts counts N).
  Local Notation G := leaves.

  Lemma HP : 1 <= P.
  Proof. destruct OK as (NE & _). destruct ps; [congruence|]. unfold zlen. cbn [length]. lia. Qed.
  Lemma nums_pos : Forall (Z.le 0) nums.
  Proof. apply Forall_forall. intros x I. apply in_map_iff in I. destruct I as (p & <- & I). destruct OK as (_ & FP & _). rewrite Forall_forall in FP. destruct (FP p I) as (_ & -> & _). apply zlen_nonneg. Qed.
  Lemma Hnow i : 0 <= i <= P -> zget now i = Some (nwf i).
  Proof. intros H. destruct OK as (_ & _ & _ & _ & _ & E & _). rewrite E. unfold count_quadrants. rewrite zget_nth by lia. rewrite running_nth by (rewrite map_length; unfold zlen in H; lia). f_equal. Qed.
  Lemma Lnow : zlen now = P + 1.
  Proof. destruct OK as (_ & _ & _ & _ & _ & E & _). rewrite E. unfold count_quadrants, zlen. rewrite running_length, map_length. lia. Qed.
  Lemma Mnow i j : 0 <= i <= j -> j <= P -> nwf i <= nwf j.
  Proof. intros H _. apply pre_mono; [apply nums_pos|lia]. Qed.
  Lemma N0 : nwf 0 = 0.
  Proof. apply pre_0. Qed.
  Lemma N1 : nwf P = N.
  Proof. destruct OK as (_ & FP & _ & _ & E & _). rewrite E. rewrite <- (num_total d) by exact FP. unfold nwf, PartShip.total, zlen. rewrite Nat2Z.id, map_length. reflexivity. Qed.
  Lemma Hnew i : 0 <= i <= P -> zget new i = Some (ncf i).
  Proof. intros H. rewrite new_cuts_running by exact Tc. rewrite zget_nth by lia. rewrite running_nth by (unfold zlen in *; lia). f_equal. Qed.
  Lemma Lnew : zlen new = P + 1.
  Proof. rewrite new_cuts_running by exact Tc. unfold zlen in *. rewrite running_length. lia. Qed.
  Lemma Mnew i j : 0 <= i <= j -> j <= P -> ncf i <= ncf j.
  Proof. intros H _. apply pre_mono; [exact Pc|lia]. Qed.
  Lemma C0 : ncf 0 = 0.
  Proof. apply pre_0. Qed.
  Lemma C1 : ncf P = N.
  Proof. rewrite <- Tc. unfold ncf. f_equal. unfold zlen in *. lia. Qed.
  Lemma LG : zlen G = N.
  Proof. destruct OK as (_ & _ & _ & _ & E & _). unfold leaves. rewrite zlen_map. symmetry. exact E. Qed.
  Lemma leaves_get k t q : zget G k = Some (t, q) -> exists v, zget (all_leaves St D T ps) k = Some (t, (q, v)).
  Proof. unfold leaves. rewrite zget_map. destruct (zget (all_leaves St D T ps) k) as [(t', (q', v))|]; cbn [option_map fst snd]; [|discriminate]. intros E. injection E as -> ->. eauto. Qed.
  Lemma Gwf k t q : zget G k = Some (t, q) -> wf d q.
  Proof. intros E. apply leaves_get in E. destruct E as (v & E). pose proof (zget_range _ _ _ E). rewrite zget_nth in E by lia. apply nth_error_In in E. destruct (leaves_wf d St D T HT F _ OK E) as (_ & W). exact W. Qed.
  Lemma Gord i j t q t' q' : i < j -> zget G i = Some (t, q) -> zget G j = Some (t', q') -> t < t' \/ t = t' /\ qend d q <= qpos d q'.
  Proof.
    intros L E1 E2. apply leaves_get in E1, E2. destruct E1 as (v & E1). destruct E2 as (v' & E2). pose proof (zget_range _ _ _ E1). pose proof (zget_range _ _ _ E2). rewrite zget_nth in E1, E2 by lia.
    exact (SS_pair _ _ (leaves_order d St D T HT F OK) _ _ _ _ (ltac:(lia) : (Z.to_nat i < Z.to_nat j)%nat) E1 E2).
  Qed.
  Lemma dflt : exists p0 : proc St D, In p0 ps.
  Proof. destruct OK as (NE & _). destruct ps as [|p l]; [congruence|]. exists p. left. reflexivity. Qed.

  Section Dflt.
    Variable p0 : proc St D.
    Definition pr (j : Z) : proc St D := nth (Z.to_nat j) ps p0.
    Lemma pr_get j : 0 <= j < P -> nth_error ps (Z.to_nat j) = Some (pr j).
    Proof. intros H. unfold pr. apply nth_error_nth'. unfold zlen in H. lia. Qed.
    Lemma nw_step j : 0 <= j < P -> nwf (j + 1) = nwf j + pr_num St D (pr j).
    Proof. intros H. unfold nwf. replace (Z.to_nat (j + 1)) with (S (Z.to_nat j)) by lia. apply pre_S. apply map_nth_error. apply pr_get. exact H. Qed.
    Lemma Hpr j : 0 <= j < P -> proc_ok d St D T (pr j) /\ pr_num St D (pr j) = nwf (j + 1) - nwf j.
    Proof. intros H. split; [|rewrite nw_step by exact H; lia]. destruct OK as (_ & FP & _). rewrite Forall_forall in FP. apply FP. apply (nth_error_In _ _ (pr_get j H)). Qed.
    Lemma HG j k : 0 <= j < P -> nwf j <= k < nwf (j + 1) -> zget G k = option_map (fun x => (fst x, fst (snd x))) (zget (rank_leaves St D T (pr j)) (k - nwf j)).
    Proof.
      intros Hj Hk. unfold leaves. rewrite zget_map. f_equal. destruct (nth_error_split _ _ (pr_get j Hj)) as (l1 & l2 & E & L1). 
      assert (FP : Forall (proc_ok d St D T) ps) by apply OK. assert (F1 : Forall (proc_ok d St D T) l1) by (rewrite E in FP; apply Forall_app in FP; apply FP).
      assert (EN : zlen (all_leaves St D T l1) = nwf j).
      { rewrite <- (num_total d) by exact F1. unfold PartShip.total, nwf. rewrite (pre_firstn nums (Z.to_nat j)) by (rewrite map_length; unfold zlen in Hj; lia). rewrite firstn_map. replace (firstn (Z.to_nat j) ps) with l1; [reflexivity|].
        rewrite E, <- L1. rewrite firstn_app, Nat.sub_diag, firstn_all. cbn [firstn]. rewrite app_nil_r. reflexivity. }
      rewrite E at 1. unfold all_leaves. rewrite flat_map_app. cbn [flat_map]. fold (all_leaves St D T l1). rewrite zget_app2 by lia. rewrite EN. rewrite zget_app1; [reflexivity|].
      pose proof (proj2 (Hpr j Hj)) as EQ. change (k - nwf j < zlen (rank_leaves St D T (pr j))). rewrite <- (num_len d St D T _ (proj1 (Hpr j Hj))). lia.
    Qed.

    Variable junk : Z -> option Z.
    Hypothesis Hjunk : forall r, 0 < r < P -> ncf r < ncf (r + 1) -> (exists v, junk r = Some v /\ 0 <= v) \/ C - 1 <= ncf r \/ ncf r + C - 2 >= N.

    Definition mess (r j : Z) : pmsg :=
      match message d St D j (pr j) (nwf j) (nwf (j + 1)) (ncf r) r with Some m => m | None => mkpm j r 0 (mkq 0 0 0 0) 0 end.
    Lemma Hmess r j : 0 <= j < P -> nwf j < nwf (j + 1) -> near_cut d (ncf r) (nwf j) (nwf (j + 1)) = true ->
      message d St D j (pr j) (nwf j) (nwf (j + 1)) (ncf r) r = Some (mess r j) /\ pm_src (mess r j) = j /\ pm_dst (mess r j) = r.
    Proof.
      intros Hj NE NC. unfold mess. destruct (msg_ok d St D T HT P nwf Mnow G Gwf pr Hpr HG (ncf r) r j Hj NE NC) as (t & q & _ & [(_ & E)|(_ & mn & mx & E & _)]); rewrite E; repeat split.
    Qed.
    Definition sent (j : Z) : list pmsg := map (fun r => mess r j) (if nwf j <? nwf (j + 1) then dests d P ncf (nwf j) (nwf (j + 1)) else []).
    Lemma send_ok j : 0 <= j < P -> send_messages d St D new now P N j (pr j) = Some (sent j).
    Proof.
      intros Hj. pose proof HP. unfold send_messages. rewrite !Hnow by lia. pose proof (Mnow 0 j ltac:(lia) ltac:(lia)). pose proof (Mnow j (j + 1) ltac:(lia) ltac:(lia)). pose proof (Mnow (j + 1) P ltac:(lia) ltac:(lia)). pose proof N0. pose proof N1.
      rewrite (destinations_ok d P N new ncf HP Hnew Lnew Mnew C0 C1) by lia. unfold sent. apply all_some_ok. intros r I. destruct (nwf j <? nwf (j + 1)) eqn:B; [|destruct I]. unfold dests in I. apply filter_In in I. destruct I as (I & E).
      apply in_zseq in I. rewrite Hnew by lia. apply Hmess; lia.
    Qed.
    Lemma send_all : mapi_opt (send_messages d St D new now P N) 0 ps = Some (map sent (zseq (length ps) 0)).
    Proof.
      apply mapi_opt_map. intros k x E. assert (Hk : 0 <= Z.of_nat k < P) by (pose proof (nth_error_Some ps k); rewrite E in *; unfold zlen; intuition (try lia; try congruence)).
      pose proof (pr_get (Z.of_nat k) Hk) as E'. rewrite Nat2Z.id, E in E'. injection E' as ->. replace (0 + Z.of_nat k) with (Z.of_nat k) by lia. apply send_ok. exact Hk.
    Qed.
    Local Notation every := (concat (map sent (zseq (length ps) 0))).
    Lemma sets_match j r : In j (zseq (length ps) 0) -> 0 < r < P -> ncf r < ncf (r + 1) ->
      (In r (if nwf j <? nwf (j + 1) then dests d P ncf (nwf j) (nwf (j + 1)) else []) <-> In j (srcs d P nwf (ncf r))).
    Proof.
      intros Ij Hr NE. apply in_zseq in Ij. unfold dests, srcs. rewrite filter_In, in_zseq. destruct (nwf j <? nwf (j + 1)) eqn:B; [rewrite filter_In, in_zseq|]; split.
      - intros (_ & H). apply andb_prop in H. unfold zlen in *. rewrite (proj2 H). split; [lia|reflexivity].
      - intros (_ & H). replace (ncf r <? ncf (r + 1)) with true by lia. split; [lia|exact H].
      - intros [].
      - intros (_ & H). discriminate H.
    Qed.
    Lemma deliver_ok r j : 0 < r < P -> ncf r < ncf (r + 1) -> In j (srcs d P nwf (ncf r)) -> deliver every r j = Some (mess r j).
    Proof.
      intros Hr NE I. assert (Ij : In j (zseq (length ps) 0)) by (unfold srcs in I; apply filter_In in I; destruct I as (I & _); unfold zlen in I; rewrite Nat2Z.id in I; exact I).
      assert (Hj : 0 <= j < P) by (apply in_zseq in Ij; unfold zlen; lia). pose proof (proj2 (sets_match j r Ij Hr NE) I) as I'. unfold srcs in I. apply filter_In in I. destruct I as (_ & B). apply andb_prop in B. destruct B as (B1 & B2).
      destruct (Hmess r j Hj ltac:(lia) B2) as (_ & E1 & E2). unfold deliver. apply find_unique.
      - apply in_concat. exists (sent j). split; [apply in_map; exact Ij|]. unfold sent. apply (in_map (fun r => mess r j)). exact I'.
      - rewrite E1, E2. lia.
      - intros y Iy Ey. apply in_concat in Iy. destruct Iy as (l & Il & Iy). apply in_map_iff in Il. destruct Il as (j' & <- & Ij'). unfold sent in Iy. apply in_map_iff in Iy. destruct Iy as (r' & <- & Ir').
        destruct (nwf j' <? nwf (j' + 1)) eqn:B; [|destruct Ir']. apply in_zseq in Ij'. unfold dests in Ir'. apply filter_In in Ir'. destruct Ir' as (Ir' & B'). apply andb_prop in B'.
        destruct (Hmess r' j' ltac:(unfold zlen; lia) ltac:(lia) (proj2 B')) as (_ & X1 & X2). rewrite X1, X2 in Ey. replace j' with j by lia. replace r' with r by lia. reflexivity.
    Qed.

    (** what rank [r] finds out *)
    Definition cspec (r v : Z) : Prop :=
      (v = 0 /\ (ncf r < ncf (r + 1) -> forall m t p, family d G m t p -> ~ m < ncf r < m + C)) \/
      (ncf r < ncf (r + 1) /\ exists m t p w, family d G m t p /\ m < ncf r < m + C /\ winner d P ncf m w /\ v = if w <? r then ncf r - (m + C) else ncf r - m).
    Lemma correction_ok r : 0 <= r < P -> exists v, correction d (junk r) new now P N every r = Some v /\ cspec r v /\ (ncf r = ncf (r + 1) -> v = 0) /\ (r = 0 -> v = 0).
    Proof.
      intros Hr. pose proof HP. unfold correction. rewrite !Hnew by lia. destruct (negb (r =? 0) && (ncf r <? ncf (r + 1))) eqn:B.
      2: { exists 0. split; [reflexivity|]. split; [|split; reflexivity]. left. split; [reflexivity|]. intros NE m t p Fm. pose proof (family_range d G m t p Fm). assert (r = 0) by lia. subst r. rewrite C0. lia. }
      pose proof (Mnew 0 r ltac:(lia) ltac:(lia)). pose proof (Mnew (r + 1) P ltac:(lia) ltac:(lia)). pose proof C0. pose proof C1. assert (Hc : 0 <= ncf r < N) by lia.
      destruct (owner_exists P N nwf HP N0 N1 (ncf r) Hc) as (o & Ho & Hoc).
      destruct (sources_ok d P N now [] nwf HP Hnow Lnow Mnow N0 N1 (ncf r) Hc (junk r) o (Hjunk r ltac:(lia) ltac:(lia)) Ho Hoc) as (id & -> & Eid).
      rewrite (all_some_ok _ (mess r)) by (intros j I; apply deliver_ok; [lia|lia|exact I]).
      assert (Em : zget (map (mess r) (srcs d P nwf (ncf r))) id = Some (mess r o)) by (rewrite zget_map, Eid; reflexivity).
      destruct (map (mess r) (srcs d P nwf (ncf r))) as [|m0 ms] eqn:EM; [unfold zget in Em; destruct (id <? 0); [discriminate|destruct (Z.to_nat id); discriminate]|]. rewrite Em, <- EM.
      destruct (fold_left (family_step d o (mess r o)) (map (mess r) (srcs d P nwf (ncf r))) (ncf r, ncf r)) as (mn, mx) eqn:EF.
      destruct (fold_all d St D T HT P N nwf HP Mnow N0 N1 G LG Gwf Gord pr Hpr HG (ncf r) r o Hc Ho Hoc (mess r) (fun j A A' A'' => proj1 (Hmess r j A A' A'')) mn mx EF) as [(m & t & p & Fm & Hm & -> & ->)|(NF & NC)].
      - pose proof (family_range d G m t p Fm) as R. rewrite LG in R. destruct (partition_correction_ok d P N new ncf HP Hnew Mnew C0 C1 m r Hr R Hm ltac:(lia)) as (w & W & E). rewrite E. eexists. split; [reflexivity|]. split; [right; split; [lia|exists m, t, p, w; auto]|lia].
      - rewrite (no_correction d P new ncf Hnew r mn mx Hr NC). exists 0. split; [reflexivity|]. split; [left; split; [reflexivity|intros _; exact NF]|lia].
    Qed.
    Definition crf (r : Z) : Z := match correction d (junk r) new now P N every r with Some v => v | None => 0 end.
    Lemma crf_ok r : 0 <= r < P -> correction d (junk r) new now P N every r = Some (crf r) /\ cspec r (crf r) /\ (ncf r = ncf (r + 1) -> crf r = 0) /\ (r = 0 -> crf r = 0).
    Proof. intros Hr. destruct (correction_ok r Hr) as (v & E & X). unfold crf. rewrite E. auto. Qed.
    Lemma count_get i : 0 <= i < P -> zget counts i = Some (ncf (i + 1) - ncf i).
    Proof. intros H. destruct (zget_some counts i ltac:(lia)) as (v & E). rewrite E. f_equal. rewrite zget_nth in E by lia. apply pre_S in E. unfold ncf. replace (Z.to_nat (i + 1)) with (S (Z.to_nat i)) by lia. lia. Qed.

    Local Notation mv := (moved P N ncf crf).
    Lemma run_ok : exists l, for_coarsening d St D junk F counts = Some (l, total_moved crf P) /\ zlen l = P /\ forall i, 0 <= i < P -> zget l i = Some (mv (i + 1) - mv i).
    Proof.
      unfold for_coarsening. rewrite send_all. rewrite (mapi_opt_map _ crf).
      2: { intros k x E. apply crf_ok. pose proof (nth_error_Some ps k). rewrite E in *. unfold zlen. intuition (try lia; try congruence). }
      apply (corrected P N [] [] ncf HP Mnew C1 crf).
      - intros i Hi. rewrite zget_map, zget_nth by lia. rewrite zseq_nth by (unfold zlen in Hi; lia). cbn [option_map]. do 2 f_equal. lia.
      - exact count_get.
      - exact Lc.
      - apply (crf_ok 0); [pose proof HP; lia|reflexivity].
      - intros i Hi E. destruct (crf_ok i Hi) as (_ & _ & X & _). exact (X E).
    Qed.

    Lemma moved_cases : forall n i, 0 <= i -> i + Z.of_nat n = P -> (ncf i = N /\ mv i = N /\ (forall j, i <= j < P -> ncf j = ncf (j + 1))) \/
      exists k, i <= k < P /\ ncf k < ncf (k + 1) /\ ncf i = ncf k /\ mv i = ncf k - crf k /\ (forall j, i <= j < k -> ncf j = ncf (j + 1)).
    Proof.
      induction n as [|n IH]; intros i Hi E.
      - left. assert (i = P) by lia. subst i. split; [apply C1|]. split; [apply moved_P|]. intros j Hj. lia.
      - rewrite moved_step by lia. destruct (ncf i <? ncf (i + 1)) eqn:B; [right; exists i; repeat split; try lia; intros j Hj; lia|]. pose proof (Mnew i (i + 1) ltac:(lia) ltac:(lia)).
        destruct (IH (i + 1) ltac:(lia) ltac:(lia)) as [(A1 & A2 & A3)|(k & A1 & A2 & A3 & A4 & A5)]; [left|right; exists k]; repeat split; try lia; intros j Hj; (destruct (Z.eq_dec j i) as [->|]; [lia|]); [apply A3|apply A5]; lia.
    Qed.
    Lemma cases i : 0 <= i <= P -> (ncf i = N /\ mv i = N /\ (forall j, i <= j < P -> ncf j = ncf (j + 1))) \/
      exists k, i <= k < P /\ ncf k < ncf (k + 1) /\ ncf i = ncf k /\ mv i = ncf k - crf k /\ (forall j, i <= j < k -> ncf j = ncf (j + 1)).
    Proof. intros H. apply (moved_cases (Z.to_nat (P - i))); lia. Qed.

    (** where the cut of a nonempty rank goes *)
    Lemma goes k : 0 <= k < P -> ncf k < ncf (k + 1) ->
      (ncf k - crf k = ncf k /\ forall m t p, family d G m t p -> ~ m < ncf k < m + C) \/
      (exists m t p w, family d G m t p /\ m < ncf k < m + C /\ winner d P ncf m w /\ ncf k - crf k = if w <? k then m + C else m).
    Proof.
      intros Hk NE. destruct (crf_ok k Hk) as (_ & [(E & X)|(_ & m & t & p & w & A & B & W & E)] & _).
      - left. split; [lia|]. exact (X NE).
      - right. exists m, t, p, w. split; [exact A|]. split; [exact B|]. split; [exact W|]. rewrite E. destruct (w <? k); lia.
    Qed.
    Lemma fam_eq m t p m' t' p' c : family d G m t p -> family d G m' t' p' -> m < c < m + C -> m' < c < m' + C -> m = m'.
    Proof. intros A B X Y. destruct (Z.lt_trichotomy m m') as [L|[|L]]; [|assumption|]; [pose proof (family_disjoint d G Gwf Gord _ _ _ _ _ _ A B L)|pose proof (family_disjoint d G Gwf Gord _ _ _ _ _ _ B A L)]; lia. Qed.
    Lemma cut_mono j k : 0 <= j < k -> k < P -> ncf j < ncf (j + 1) -> ncf k < ncf (k + 1) -> ncf j - crf j <= ncf k - crf k.
    Proof.
      intros Hj Hk NEj NEk. pose proof (Mnew (j + 1) k ltac:(lia) ltac:(lia)) as L. pose proof (CH d) as HC.
      destruct (goes j ltac:(lia) NEj) as [(-> & Xj)|(m & t & p & w & A & B & W & ->)]; destruct (goes k ltac:(lia) NEk) as [(-> & Xk)|(m' & t' & p' & w' & A' & B' & W' & ->)].
      - lia.
      - specialize (Xj _ _ _ A'). destruct (w' <? k); lia.
      - specialize (Xk _ _ _ A). destruct (w <? j); lia.
      - destruct (Z.lt_trichotomy m m') as [Lm|[->|Lm]].
        + pose proof (family_disjoint d G Gwf Gord _ _ _ _ _ _ A A' Lm). destruct (w <? j), (w' <? k); lia.
        + pose proof (winner_unique d P ncf _ _ _ W W') as <-. destruct (w <? j) eqn:Bj; [replace (w <? k) with true by lia; lia|destruct (w <? k); lia].
        + pose proof (family_disjoint d G Gwf Gord _ _ _ _ _ _ A' A Lm). lia.
    Qed.
    Lemma cut_range k : 0 <= k < P -> ncf k < ncf (k + 1) -> 0 <= ncf k - crf k <= N /\ - C < crf k < C.
    Proof.
      intros Hk NE. pose proof (CH d). pose proof (Mnew 0 k ltac:(lia) ltac:(lia)). pose proof (Mnew (k + 1) P ltac:(lia) ltac:(lia)). pose proof C0. pose proof C1.
      destruct (goes k Hk NE) as [(E & _)|(m & t & p & w & A & B & _ & E)]; [lia|]. pose proof (family_range d G m t p A) as R. rewrite LG in R. destruct (w <? k); lia.
    Qed.
    Lemma mv_mono i j : 0 <= i <= j -> j <= P -> mv i <= mv j.
    Proof.
      intros Hi Hj. pose proof (Mnew i j Hi Hj). destruct (cases i ltac:(lia)) as [(A1 & A2 & A3)|(k & A1 & A2 & A3 & A4 & A5)]; destruct (cases j ltac:(lia)) as [(B1 & B2 & B3)|(k' & B1 & B2 & B3 & B4 & B5)].
      - lia.
      - pose proof (Mnew (k' + 1) P ltac:(lia) ltac:(lia)). pose proof C1. lia.
      - pose proof (cut_range k ltac:(lia) A2). lia.
      - rewrite A4, B4. destruct (Z.lt_trichotomy k k') as [L|[->|L]]; [apply cut_mono; lia|lia|]. pose proof (Mnew (k' + 1) k ltac:(lia) ltac:(lia)). lia.
    Qed.
    Lemma mv_0 : mv 0 = 0.
    Proof.
      pose proof HP. destruct (cases 0 ltac:(lia)) as [(A1 & A2 & A3)|(k & A1 & A2 & A3 & A4 & A5)]; [rewrite C0 in A1; lia|]. rewrite A4. rewrite C0 in A3. destruct (goes k ltac:(lia) A2) as [(E & _)|(m & t & p & w & A & B & _ & E)]; [lia|]. pose proof (family_range d G m t p A). lia.
    Qed.
    Lemma mv_near i : 0 <= i <= P -> - C < mv i - ncf i < C.
    Proof. intros Hi. pose proof (CH d). destruct (cases i Hi) as [(A1 & A2 & A3)|(k & A1 & A2 & A3 & A4 & A5)]; [lia|]. pose proof (cut_range k ltac:(lia) A2). lia. Qed.
    Lemma mv_free i : 0 <= i <= P -> (forall m t p, family d G m t p -> ~ m < ncf i < m + C) -> mv i = ncf i.
    Proof. intros Hi NF. destruct (cases i Hi) as [(A1 & A2 & A3)|(k & A1 & A2 & A3 & A4 & A5)]; [lia|]. destruct (goes k ltac:(lia) A2) as [(E & _)|(m & t & p & w & A & B & _ & E)]; [lia|]. specialize (NF _ _ _ A). lia. Qed.

    Lemma winner_exists m : 0 <= m -> m + C <= N -> exists w, winner d P ncf m w /\ 0 < share d ncf m w.
    Proof.
      intros Hm HN. pose proof (CH d) as HC. pose proof HP.
      assert (IH : forall n, exists w, 0 <= w <= Z.of_nat n /\ (forall i, 0 <= i < w -> share d ncf m i < share d ncf m w) /\ (forall i, w < i <= Z.of_nat n -> share d ncf m i <= share d ncf m w)).
      { induction n as [|n (w & A & B & E)]; [exists 0; repeat split; intros; lia|]. destruct (Z.lt_ge_cases (share d ncf m w) (share d ncf m (Z.of_nat (S n)))) as [L|L].
        - exists (Z.of_nat (S n)). split; [lia|]. split; [|intros; lia]. intros i Hi. destruct (Z.lt_trichotomy i w) as [X|[->|X]]; [specialize (B i ltac:(lia)); lia|exact L|specialize (E i ltac:(lia)); lia].
        - exists w. split; [lia|]. split; [exact B|]. intros i Hi. destruct (Z.eq_dec i (Z.of_nat (S n))) as [->|]; [exact L|apply E; lia]. }
      destruct (IH (Z.to_nat (P - 1))) as (w & A & B & E). exists w. assert (W : winner d P ncf m w) by (split; [lia|]; split; [exact B|]; intros i Hi; apply E; lia). split; [exact W|].
      destruct (owner_exists P N ncf HP C0 C1 m ltac:(lia)) as (o & Ho & Ho'). assert (0 < share d ncf m o) by (unfold share; lia).
      destruct (Z.lt_trichotomy o w) as [X|[->|X]]; [specialize (B o ltac:(lia)); lia|assumption|specialize (E o ltac:(lia)); lia].
    Qed.
    (** a family ends up on the rank that had most of it *)
    Lemma family_kept m t p : family d G m t p -> exists w, winner d P ncf m w /\ 0 < share d ncf m w /\ mv w <= m /\ m + C <= mv (w + 1).
    Proof.
      intros A. pose proof (CH d) as HC. pose proof (family_range d G m t p A) as R. rewrite LG in R. destruct (winner_exists m ltac:(lia) ltac:(lia)) as (w & W & S0). exists w. split; [exact W|]. split; [exact S0|]. destruct W as (Hw & W'). pose proof (conj Hw W' : winner d P ncf m w) as W. clear W'.
      assert (NE : ncf w < m + C /\ m < ncf (w + 1) /\ ncf w < ncf (w + 1)) by (unfold share in S0; lia). destruct NE as (X1 & X2 & NE). split.
      - rewrite moved_step by lia. replace (ncf w <? ncf (w + 1)) with true by lia. destruct (goes w Hw NE) as [(-> & XF)|(m' & t' & p' & w' & A' & B' & W' & ->)]; [specialize (XF _ _ _ A); lia|].
        destruct (Z.lt_trichotomy m' m) as [L|[->|L]].
        + pose proof (family_disjoint d G Gwf Gord _ _ _ _ _ _ A' A L). destruct (w' <? w); lia.
        + pose proof (winner_unique d P ncf _ _ _ W W') as <-. replace (w <? w) with false by lia. lia.
        + pose proof (family_disjoint d G Gwf Gord _ _ _ _ _ _ A A' L). lia.
      - destruct (cases (w + 1) ltac:(lia)) as [(A1 & A2 & A3)|(k & A1 & A2 & A3 & A4 & A5)]; [lia|]. rewrite A4. destruct (goes k ltac:(lia) A2) as [(-> & XF)|(m' & t' & p' & w' & A' & B' & W' & ->)]; [specialize (XF _ _ _ A); lia|].
        destruct (Z.lt_trichotomy m' m) as [L|[->|L]].
        + pose proof (family_disjoint d G Gwf Gord _ _ _ _ _ _ A' A L). lia.
        + pose proof (winner_unique d P ncf _ _ _ W W') as <-. replace (w <? k) with true by lia. lia.
        + pose proof (family_disjoint d G Gwf Gord _ _ _ _ _ _ A A' L). destruct (w' <? k); lia.
    Qed.
  End Dflt.

  (** leaves that are all children of a quadrant stand side by side *)
  Lemma family_of_leaves t p : wf d p -> ql p < 29 -> (forall k, 0 <= k < C -> In (t, child d p k) G) -> exists m, family d G m t p.
  Proof.
    intros Wp Lp I. pose proof (CH d) as HC. destruct (In_nth_error _ _ (I 0 ltac:(lia))) as (m & Em). exists (Z.of_nat m). split; [exact Wp|]. split; [exact Lp|].
    assert (X : forall n, Z.of_nat n < C -> zget G (Z.of_nat m + Z.of_nat n) = Some (t, child d p (Z.of_nat n))).
    { induction n as [|n IH]; intros Hn.
      - rewrite zget_nth by lia. replace (Z.to_nat (Z.of_nat m + Z.of_nat 0)) with m by lia. exact Em.
      - specialize (IH ltac:(lia)). destruct (In_nth_error _ _ (I (Z.of_nat (S n)) ltac:(lia))) as (j & Ej). assert (Ej' : zget G (Z.of_nat j) = Some (t, child d p (Z.of_nat (S n)))) by (rewrite zget_nth by lia; rewrite Nat2Z.id; exact Ej).
        pose proof (child_pos d p (Z.of_nat n) Wp ltac:(lia) ltac:(lia)) as P1. pose proof (child_pos d p (Z.of_nat (S n)) Wp ltac:(lia) ltac:(lia)) as P2.
        destruct (child_wf d p (Z.of_nat n) Wp ltac:(lia) ltac:(lia)) as (_ & Q1 & _). destruct (child_wf d p (Z.of_nat (S n)) Wp ltac:(lia) ltac:(lia)) as (_ & Q2 & _).
        pose proof (psize_pos d (ql p + 1) ltac:(lia)) as PP.
        destruct (Z.lt_trichotomy (Z.of_nat m + Z.of_nat n) (Z.of_nat j)) as [L|[L|L]].
        + destruct (Z.eq_dec (Z.of_nat j) (Z.of_nat m + Z.of_nat (S n))) as [<-|NE]; [exact Ej'|]. exfalso.
          pose proof (zget_range _ _ _ Ej') as R. destruct (zget_some G (Z.of_nat m + Z.of_nat (S n)) ltac:(lia)) as ((t', q) & Eq).
          pose proof (Gord _ _ _ _ _ _ (ltac:(lia) : Z.of_nat m + Z.of_nat n < Z.of_nat m + Z.of_nat (S n)) IH Eq) as O1. pose proof (Gord _ _ _ _ _ _ (ltac:(lia) : Z.of_nat m + Z.of_nat (S n) < Z.of_nat j) Eq Ej') as O2.
          pose proof (qsize_pos d q (Gwf _ _ _ Eq)). unfold qend in *. rewrite (qsize_psize d (child d p (Z.of_nat n))), Q1, P1 in O1. rewrite P2 in O2. nia.
        + rewrite L, Ej' in IH. assert (E : child d p (Z.of_nat (S n)) = child d p (Z.of_nat n)) by congruence. rewrite E in P2. nia.
        + pose proof (Gord _ _ _ _ _ _ L Ej' IH) as O1. unfold qend in O1. rewrite (qsize_psize d (child d p (Z.of_nat (S n)))), Q2, P1, P2 in O1. nia. }
    intros k Hk. specialize (X (Z.to_nat k) ltac:(lia)). rewrite Z2Nat.id in X by lia. exact X.
  Qed.
End All.
