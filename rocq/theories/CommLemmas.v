(** * Partition markers of all distributions *)

From Coq Require Import ZArith List Bool Lia Arith ZifyBool Sorting.Sorted.
From Verif Require Import Quad Search Adapt ListLemmas Partition PartLemmas PartTrees PartRecv PartGlue PartFinal Comm.
Import ListNotations.
Open Scope Z_scope.

Lemma running_nth c : forall s k, (k <= length c)%nat -> nth_error (running s c) k = Some (s + pre c k).
Proof.
  induction c as [|n c IH]; intros s k Hk; destruct k as [|k]; cbn [running nth_error pre length] in *; try (f_equal; lia); try lia.
  rewrite IH by lia. f_equal. lia.
Qed.
Lemma running_length c : forall s, length (running s c) = S (length c).
Proof. induction c as [|n c IH]; intros s; cbn [running length]; [reflexivity|]. rewrite IH. reflexivity. Qed.

Lemma old_lasts_running c : forall s, old_lasts (running s c) = lasts (s - 1) c.
Proof.
  unfold old_lasts. induction c as [|n c IH]; intros s; cbn [running tl lasts map]; [reflexivity|].
  specialize (IH (s + n)). destruct c as [|m c]; cbn [running map tl lasts] in *; [f_equal; lia|].
  f_equal; [lia|]. rewrite IH. replace (s + n - 1) with (s - 1 + n) by lia. reflexivity.
Qed.

Lemma lasts_running c : forall s, s :: map (fun v => v + 1) (lasts (s - 1) c) = running s c.
Proof.
  induction c as [|n c IH]; intros s; cbn [lasts map running]; [reflexivity|]. f_equal.
  rewrite <- IH. replace (s + n - 1) with (s - 1 + n) by lia. f_equal. lia.
Qed.

Section M.
  Context {A : Type}.
  Variable qof : A -> quad.
  Variable T : Z.

  Definition mark (x : Z * A) : marker :=
    mkmk (fst x) (mkq (qx (qof (snd x))) (qy (qof (snd x))) (qz (qof (snd x))) QMAXLEVEL).
  Definition mark_hd (l : list (Z * A)) : marker := match l with [] => sentinel T | x :: _ => mark x end.

  Lemma loc_hd (r : rk A) : rk_ok T r -> 0 <= k_first A r ->
    exists a l l', k_trees A r (k_first A r) = a :: l /\ loc T r = (k_first A r, a) :: l'.
  Proof.
    intros [(H & _)|(H1 & H2 & N)] Hf; [lia|].
    destruct (k_trees A r (k_first A r)) as [|a l] eqn:E.
    { exfalso. apply (proj2 (N (k_first A r))); [lia|exact E]. }
    unfold loc. replace (Z.to_nat T) with (Z.to_nat (k_first A r) + S (Z.to_nat (T - k_first A r - 1)))%nat by lia.
    rewrite loc_from_app, loc_from_nil.
    - cbn [loc_from app]. replace (0 + Z.of_nat (Z.to_nat (k_first A r))) with (k_first A r) by lia.
      rewrite E. cbn [map app]. eexists _, _, _. split; reflexivity.
    - intros t Ht. destruct (nil_dec (k_trees A r t)) as [|n]; [assumption|]. apply N in n. lia.
  Qed.

  Lemma loc_empty (r : rk A) : rk_ok T r -> (k_first A r < 0 <-> loc T r = []).
  Proof.
    intros Hr. split.
    - intros Hf. destruct Hr as [(_ & _ & N)|(H1 & _)]; [|lia]. apply loc_from_nil. intros. apply N.
    - intros E. destruct (Z.lt_ge_cases (k_first A r) 0) as [|G]; [assumption|].
      destruct (loc_hd r Hr G) as (a & l & l' & _ & E2). congruence.
  Qed.

  Lemma global_partition_spec : forall ranks, Forall (rk_ok T) ranks ->
    exists ms, global_partition qof T ranks = Some ms /\ length ms = S (length ranks) /\
      forall i, (i <= length ranks)%nat -> nth_error ms i = Some (mark_hd (glob T (skipn i ranks))).
  Proof.
    unfold global_partition. induction ranks as [|r l IH]; intros H; cbn [inputs].
    - exists [sentinel T]. split; [reflexivity|]. split; [reflexivity|]. intros i Hi. destruct i; [reflexivity|cbn in Hi; lia].
    - inversion H as [|? ? Hr Hl]; subst. destruct (IH Hl) as (ms & E & L & N).
      destruct (inputs qof l) as [ins|]; [|discriminate]. injection E as E.
      unfold marker_input. destruct (k_first A r <? 0) eqn:C.
      + eexists. split; [reflexivity|]. cbn [fill g_tree]. rewrite C, E. split; [cbn [length]; lia|].
        intros i Hi. destruct i as [|i]; cbn [nth_error skipn glob flat_map]; [|apply N; cbn in Hi; lia].
        replace (loc T r) with (@nil (Z * A)) by (symmetry; apply loc_empty; [exact Hr|lia]). cbn [app].
        specialize (N 0%nat ltac:(lia)). cbn [skipn] in N. destruct ms as [|m ms]; [discriminate|]. cbn [hd nth_error] in *. exact N.
      + destruct (loc_hd r Hr ltac:(lia)) as (a & l1 & l2 & E1 & E2). rewrite E1.
        eexists. split; [reflexivity|]. cbn [fill g_tree]. rewrite C, E. split; [cbn [length]; lia|].
        intros i Hi. destruct i as [|i]; cbn [nth_error skipn glob flat_map]; [|apply N; cbn in Hi; lia].
        rewrite E2. reflexivity.
  Qed.

  Lemma gft_ok ranks ms : Forall (rk_ok T) ranks -> lsorted (glob T ranks) -> global_partition qof T ranks = Some ms ->
    forall i r, nth_error ranks i = Some r ->
    exists a b, nth_error (map g_tree ms) i = Some a /\ nth_error (map g_tree ms) (S i) = Some b /\
      (0 <= k_first A r -> a = k_first A r /\ k_last A r <= b).
  Proof.
    intros H HS E i r Er. destruct (global_partition_spec ranks H) as (ms' & E' & L & N).
    rewrite E in E'. injection E' as <-.
    assert (Hi : (i < length ranks)%nat) by (apply nth_error_Some; congruence).
    rewrite !nth_error_map, !N by lia. cbn [option_map]. eexists _, _. split; [reflexivity|]. split; [reflexivity|].
    assert (Hr : rk_ok T r) by (rewrite Forall_forall in H; apply H; eapply nth_error_In; exact Er).
    intros Hf. assert (ES : skipn i ranks = r :: skipn (S i) ranks) by (apply skipn_cons; exact Er). rewrite ES. cbn [glob flat_map].
    destruct (loc_hd r Hr Hf) as (a & l1 & l2 & E1 & E2). split; [rewrite E2; reflexivity|].
    destruct Hr as [(? & _)|(H1 & H2 & NN)]; [lia|].
    fold (glob T (skipn (S i) ranks)). destruct (glob T (skipn (S i) ranks)) as [|x g] eqn:EG; cbn [mark_hd mark sentinel g_tree]; [lia|].
    assert (EX : exists y, In y (loc T r) /\ fst y = k_last A r).
    { destruct (k_trees A r (k_last A r)) as [|b lb] eqn:EB; [exfalso; apply (proj2 (NN (k_last A r))); [lia|exact EB]|].
      exists (k_last A r, b). split; [|reflexivity]. unfold loc.
      replace (Z.to_nat T) with (Z.to_nat (k_last A r) + S (Z.to_nat (T - k_last A r - 1)))%nat by lia.
      rewrite loc_from_app. apply in_or_app. right. cbn [loc_from].
      replace (0 + Z.of_nat (Z.to_nat (k_last A r))) with (k_last A r) by lia. rewrite EB. left. reflexivity. }
    destruct EX as (y & Hy & <-).
    assert (EQ : glob T ranks = glob T (firstn i ranks) ++ loc T r ++ x :: g).
    { rewrite <- (firstn_skipn i ranks) at 1. unfold glob. rewrite flat_map_app. f_equal. rewrite ES. cbn [flat_map]. f_equal. exact EG. }
    rewrite EQ in HS. clear - HS Hy.
    assert (A1 : forall l1 l2 : list (Z * A), lsorted (l1 ++ l2) -> forall u v, In u l1 -> In v l2 -> fst u <= fst v).
    { induction l1 as [|h l1 IH]; intros l2 HL u v Hu Hv; [destruct Hu|]. cbn [app] in HL. inversion HL as [|? ? S1 F1]; subst.
      destruct Hu as [->|Hu]; [|eapply IH; eassumption]. rewrite Forall_forall in F1. apply F1. apply in_or_app. right. exact Hv. }
    rewrite app_assoc in HS. eapply (A1 _ _ HS); [apply in_or_app; right; exact Hy|left; reflexivity].
  Qed.
End M.
