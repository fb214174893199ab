(** * p4est_partition_given: the new local parts *)

From Coq Require Import ZArith List Bool Lia Arith ZifyBool Sorting.Sorted.
From Verif Require Import Quad Search Adapt ListLemmas Partition PartLemmas PartTrees PartRecv PartGlue.
Import ListNotations.
Open Scope Z_scope.

(** the global sequence of leaves, each with its tree *)
Definition glob {A} (T : Z) (ranks : list (rk A)) : list (Z * A) := flat_map (loc T) ranks.

Lemma glob_length {A} T (ranks : list (rk A)) : forall k, (k <= length ranks)%nat ->
  pre (map (fun r => zlen (loc T r)) ranks) k = zlen (glob T (firstn k ranks)).
Proof.
  induction ranks as [|r l IH]; intros k Hk; destruct k as [|k]; cbn [map pre firstn glob flat_map]; try reflexivity.
  cbn [length] in Hk. rewrite zlen_app, IH by lia. reflexivity.
Qed.

Lemma ofl_cat {A} t (f : Z -> list (Z * A)) : forall n s, ofl t (cat f s n) = cat (fun p => ofl t (f p)) s n.
Proof. induction n as [|n IH]; intros s; cbn [cat]; [reflexivity|]. rewrite ofl_app, IH. reflexivity. Qed.

Lemma cat_loc {A} (f : Z -> list A) : forall n s, cat f s n = map snd (loc_from s n f).
Proof.
  induction n as [|n IH]; intros s; cbn [cat loc_from map]; [reflexivity|].
  rewrite map_app, map_map, IH. cbn [snd]. rewrite map_id. reflexivity.
Qed.

Lemma sub_sorted {B} (R : B -> B -> Prop) a b l : StronglySorted R l -> StronglySorted R (sub a b l).
Proof.
  intros H. unfold sub.
  assert (S1 : forall n (l : list B), StronglySorted R l -> StronglySorted R (skipn n l)).
  { induction n as [|n IH]; intros m Hm; [exact Hm|]. destruct m as [|x m]; [constructor|]. cbn [skipn].
    apply IH. inversion Hm; assumption. }
  apply (S1 a) in H. revert H. generalize (skipn a l). intros m. revert m. induction (b - a)%nat as [|n IH]; intros m Hm; [constructor|].
  destruct m as [|x m]; [constructor|]. cbn [firstn]. inversion Hm; subst. constructor; [apply IH; assumption|].
  rewrite Forall_forall in *. intros y Hy. apply H2. rewrite <- (firstn_skipn n m). apply in_or_app. left. exact Hy.
Qed.

Lemma sub_Sorted {B} (R : B -> B -> Prop) a b l : Sorted R l -> Sorted R (sub a b l).
Proof.
  intros H. unfold sub.
  assert (S1 : forall n (l : list B), Sorted R l -> Sorted R (skipn n l)).
  { induction n as [|n IH]; intros m Hm; [exact Hm|]. destruct m as [|x m]; [constructor|]. cbn [skipn].
    apply IH. inversion Hm; assumption. }
  apply (S1 a) in H. revert H. generalize (skipn a l). intros m. revert m. induction (b - a)%nat as [|n IH]; intros m Hm; [constructor|].
  destruct m as [|x m]; [constructor|]. cbn [firstn]. inversion Hm; subst. constructor; [apply IH; assumption|].
  destruct n as [|n]; [constructor|]. destruct m as [|y m]; cbn [firstn]; [constructor|]. inversion H2; subst. constructor. assumption.
Qed.

(** neighbouring leaves are in the same tree or in successive trees *)
Definition step {A} (x y : Z * A) : Prop := fst x <= fst y <= fst x + 1.

Lemma step_sorted {A} (l : list (Z * A)) : Sorted step l -> lsorted l.
Proof.
  intros H. apply Sorted_StronglySorted; [intros x y z ? ?; lia|].
  induction H as [|x l Hs IH Hd]; constructor; [exact IH|]. inversion Hd; subst; constructor. unfold step in *. lia.
Qed.

Lemma step_between {A} (l : list (Z * A)) : Sorted step l -> forall t, (exists x, In x l /\ fst x <= t) -> (exists y, In y l /\ t <= fst y) ->
  exists z, In z l /\ fst z = t.
Proof.
  induction l as [|h l IH]; intros H t (x & Hx & Lx) (y & Hy & Ly); [destruct Hx|].
  pose proof (step_sorted _ H) as SS. inversion SS as [|? ? _ SF]; subst. rewrite Forall_forall in SF.
  assert (Hm : fst h <= t). { destruct Hx as [->|Hx]; [exact Lx|]. apply SF in Hx. lia. }
  destruct (Z.eq_dec (fst h) t) as [E|E]; [exists h; split; [left; reflexivity|exact E]|].
  destruct Hy as [->|Hy]; [lia|]. inversion H as [|? ? Hl Hd]; subst.
  destruct l as [|h' l]; [destruct Hy|]. inversion Hd; subst. unfold step in *.
  destruct (IH Hl t) as (z & Hz & Ez).
  - exists h'. split; [left; reflexivity|lia].
  - exists y. split; [exact Hy|exact Ly].
  - exists z. split; [right; exact Hz|exact Ez].
Qed.

Lemma ofl_in {A} t (l : list (Z * A)) : ofl t l <> [] <-> exists x, In x l /\ fst x = t.
Proof.
  unfold ofl. split.
  - intros H. destruct (filter (fun x => fst x =? t) l) as [|x l'] eqn:E; [destruct (H eq_refl)|].
    exists x. assert (I : In x (filter (fun x => fst x =? t) l)) by (rewrite E; left; reflexivity).
    apply filter_In in I. split; [tauto|lia].
  - intros (x & Hx & E) N. assert (I : In x (filter (fun x => fst x =? t) l)) by (apply filter_In; split; [exact Hx|lia]).
    destruct (filter (fun x => fst x =? t) l); [destruct I|discriminate].
Qed.

Section Final.
  Context {A : Type}.
  Variable T : Z.
  Variable ranks : list (rk A).
  Variable cn : list Z.
  Variable gft : list Z.
  Hypothesis Hok : Forall (rk_ok T) ranks.
  Hypothesis HTm : T <= topidx_max.
  Local Notation co := (map (fun r => zlen (loc T r)) ranks).
  Hypothesis Hcn : Forall (Z.le 0) cn.
  Hypothesis Hlen : length cn = length ranks.
  Hypothesis Hsum : pre cn (length cn) = pre co (length co).
  Hypothesis Hgft : forall i r, nth_error ranks i = Some r ->
    exists a b, nth_error gft i = Some a /\ nth_error gft (S i) = Some b /\ (0 <= k_first A r -> a = k_first A r /\ k_last A r <= b).
  Local Notation P := (zlen ranks).
  Local Notation olds := (lasts (-1) co).
  Local Notation news := (lasts (-1) cn).
  Local Notation od p := (pre co (Z.to_nat p)).
  Local Notation nw p := (pre cn (Z.to_nat p)).
  Local Notation ovl := (ovl co cn).
  Local Notation piece := (piece T ranks cn).
  Local Notation plan_ok := (plan_ok T ranks cn gft).

  Definition lpiece (q p : Z) : list (Z * A) := match zget ranks p with Some rp => piece p q rp | None => [] end.

  Lemma cat_lpiece q : 0 <= q -> forall l l0, ranks = l0 ++ l ->
    cat (lpiece q) (zlen l0) (length l) =
    sub (Z.to_nat (nw q) - length (glob T l0)) (Z.to_nat (nw (q + 1)) - length (glob T l0)) (glob T l).
  Proof.
    intros Hq. induction l as [|r l IH]; intros l0 E; cbn [length cat glob flat_map]; [rewrite sub_nil; reflexivity|].
    rewrite sub_app. f_equal.
    - unfold lpiece, PartGlue.piece.
      assert (EZ : Z.to_nat (zlen l0) = length l0) by (unfold zlen; lia).
      rewrite zget_nth by apply zlen_nonneg. rewrite EZ.
      assert (EN : nth_error ranks (length l0) = Some r) by (rewrite E, nth_error_app2, Nat.sub_diag by lia; reflexivity).
      rewrite EN. f_equal.
      + rewrite glob_length by (rewrite E, app_length; lia).
        rewrite E at 1. rewrite firstn_app, Nat.sub_diag, firstn_all, firstn_O, app_nil_r. unfold zlen. lia.
      + rewrite glob_length by (rewrite E, app_length; lia).
        rewrite E at 1. rewrite firstn_app, Nat.sub_diag, firstn_all, firstn_O, app_nil_r. unfold zlen. lia.
    - replace (zlen l0 + 1) with (zlen (l0 ++ [r])) by (rewrite zlen_app; reflexivity).
      rewrite (IH (l0 ++ [r])) by (rewrite <- app_assoc; exact E).
      unfold glob. rewrite !flat_map_app, !app_length. cbn [flat_map length]. rewrite app_nil_r. f_equal; lia.
  Qed.

  Lemma lpiece_all q : 0 <= q -> cat (lpiece q) 0 (length ranks) = sub (Z.to_nat (nw q)) (Z.to_nat (nw (q + 1))) (glob T ranks).
  Proof.
    intros Hq. pose proof (cat_lpiece q Hq ranks [] eq_refl) as H. cbn [glob flat_map length] in H. rewrite !Nat.sub_0_r in H. exact H.
  Qed.

  Variable pls : list (plan A).
  Hypothesis Hpls : forall p r, zget ranks p = Some r -> exists pl, zget pls p = Some pl /\ plan_ok p r pl.

  Lemma lpiece_labels q p x : In x (lpiece q p) -> 0 <= fst x < T.
  Proof.
    unfold lpiece. destruct (zget ranks p) as [r|] eqn:E; [|intros []]. intros H. apply in_sub in H.
    apply loc_from_labels in H. lia.
  Qed.

  Lemma given_recv_spec q r pl : zget ranks q = Some r -> zget pls q = Some pl ->
    exists r', given_recv A T olds gft q r pl (fun p => sent A pls p q) = Some r' /\
      (forall t, k_trees A r' t = ofl t (sub (Z.to_nat (nw q)) (Z.to_nat (nw (q + 1))) (glob T ranks))) /\
      ((k_first A r' = -1 /\ k_last A r' = -2 /\ forall t, k_trees A r' t = []) \/
       (0 <= k_first A r' <= k_last A r' /\ k_last A r' < T /\ k_trees A r' (k_first A r') <> [] /\ k_trees A r' (k_last A r') <> [] /\
        forall t, k_trees A r' t <> [] -> k_first A r' <= t <= k_last A r')).
  Proof.
    intros Er Epl. destruct (od_step T ranks cn Hok Hlen q r Er) as (Hq & Hod & Hr).
    destruct (Hpls q r Er) as (pl' & Epl' & HP). rewrite Epl in Epl'. injection Epl' as <-.
    destruct HP as (F1 & F2 & F3 & F4 & F5 & (v & Fv & Fv2) & F6 & _ & _ & _).
    set (PC := fun p t => ofl t (lpiece q p)).
    assert (LPlen : forall p, 0 <= p < P -> zlen (lpiece q p) = ovl p q).
    { intros p Hp. unfold lpiece. destruct (zget ranks p) as [rp|] eqn:E.
      - apply (piece_len T ranks cn Hok Hcn Hlen); [exact E|lia].
      - exfalso. rewrite zget_nth in E by lia. apply nth_error_None in E. unfold zlen in Hp. lia. }
    assert (LPnil : forall p, ~ p_recv A pl p > 0 -> lpiece q p = []).
    { intros p Hp. destruct (Z.le_gt_cases 0 p) as [L|G]; [destruct (Z.lt_ge_cases p P) as [L2|G2]|].
      - apply zlen_nil. rewrite LPlen by lia. rewrite F3 in Hp.
        destruct ((p_from_begin A pl <=? p) && (p <=? p_from_end A pl)) eqn:C; [|apply F4; lia].
        unfold PartLemmas.ovl, ov in *. lia.
      - unfold lpiece. replace (zget ranks p) with (@None (rk A)); [reflexivity|].
        rewrite zget_nth by lia. symmetry. apply nth_error_None. unfold zlen in G2. lia.
      - unfold lpiece, zget. replace (p <? 0) with true by lia. reflexivity. }
    assert (Hzero : forall p t, ~ p_recv A pl p > 0 -> PC p t = []).
    { intros p t Hp. unfold PC. rewrite LPnil by exact Hp. reflexivity. }
    assert (HT : forall p t, PC p t <> [] -> 0 <= t < T).
    { intros p t H. unfold PC in H. apply ofl_in in H. destruct H as (x & Hx & <-). eapply lpiece_labels; exact Hx. }
    assert (Hfrom : forall p, p_from_begin A pl <= p <= p_from_end A pl -> p_recv A pl p > 0 ->
      exists ft nrt cnt quads, from_counts A gft q pl (fun p => sent A pls p q) p = Some (ft, nrt, cnt, quads) /\
        (forall it, 0 <= it < nrt -> cnt it = zlen (PC p (ft + it))) /\
        (forall t, ~ ft <= t < ft + nrt -> PC p t = []) /\
        (p <> q -> quads = cat (PC p) ft (Z.to_nat nrt))).
    { intros p Hp Hr0. assert (Hov : 0 < ovl p q).
      { rewrite F3 in Hr0. replace ((p_from_begin A pl <=? p) && (p <=? p_from_end A pl)) with true in Hr0 by lia. lia. }
      destruct (zget ranks p) as [rp|] eqn:E.
      2:{ exfalso. rewrite zget_nth in E by lia. apply nth_error_None in E. unfold zlen in F2. lia. }
      destruct (Hpls p rp E) as (plp & Eplp & (_ & _ & _ & _ & _ & _ & _ & _ & _ & Fm)).
      destruct (zget_gft T ranks cn gft Hok Hlen Hgft p rp E) as (a & b & G1 & G2 & G3).
      destruct (G3 (ovl_empty T ranks cn Hok Hlen p q rp E ltac:(lia) Hov)) as [-> G4].
      assert (EPC : forall t, PC p t = ofl t (piece p q rp)) by (intros t; unfold PC, lpiece; rewrite E; reflexivity).
      assert (LAB : forall x, In x (piece p q rp) -> k_first A rp <= fst x < k_first A rp + Z.of_nat (Z.to_nat (b - k_first A rp + 1))).
      { intros x Hx. apply in_sub in Hx. apply loc_from_labels in Hx. destruct Hx as [Hx Hx2].
        destruct (od_step T ranks cn Hok Hlen p rp E) as (_ & _ & [(_ & _ & N)|(? & ? & N)]); [rewrite N in Hx2; destruct Hx2|].
        assert (NN : k_trees A rp (fst x) <> []) by (intros Z0; rewrite Z0 in Hx2; destruct Hx2). apply N in NN. lia. }
      assert (OUT : forall t, ~ k_first A rp <= t < k_first A rp + (b - k_first A rp + 1) -> PC p t = []).
      { intros t Ht. rewrite EPC. apply ofl_none. intros x Hx Q. apply LAB in Hx. lia. }
      unfold from_counts, num_trees_of. rewrite G1, G2.
      destruct (p =? q) eqn:C.
      - assert (p = q) by lia. subst p. rewrite Er in E. injection E as <-.
        eexists _, _, _, _. split; [reflexivity|]. split; [|split; [exact OUT|lia]].
        intros it Hit. rewrite EPC. rewrite <- (F6 Hov) by lia. f_equal. lia.
      - destruct (Fm q Hq ltac:(lia) Hov) as (m & a' & b' & M1 & M2 & M3 & M4 & M5 & M6).
        rewrite G1 in M2. rewrite G2 in M3. injection M2 as <-. injection M3 as <-.
        unfold sent. rewrite Eplp, M1, M4, M5.
        replace ((b - k_first A rp + 1 =? b - k_first A rp + 1) && (zlen (map snd (piece p q rp)) =? p_recv A pl p)) with true.
        2:{ rewrite F3. replace ((p_from_begin A pl <=? p) && (p <=? p_from_end A pl)) with true by lia.
            rewrite <- (piece_len T ranks cn Hok Hcn Hlen p q rp E) by lia. unfold zlen. rewrite map_length. lia. }
        eexists _, _, _, _. split; [reflexivity|]. split; [|split; [exact OUT|]].
        + intros it Hit. rewrite EPC. rewrite <- M6 by lia. f_equal. lia.
        + intros _. rewrite (cat_ext (PC p) (fun t => ofl t (piece p q rp))) by (intros; apply EPC).
          rewrite cat_loc, lsorted_split; [reflexivity| |].
          * apply sub_sorted. apply lsorted_loc.
          * intros x Hx. apply LAB in Hx. lia. }
    assert (Hfbe : p_from_begin A pl <= p_from_end A pl) by lia.
    assert (Hbase : lower olds q = Some (od q)) by (apply lower_lasts; rewrite (zlco T ranks); lia).
    assert (Hown : (p_send A pl q = 0 /\ forall t, PC q t = []) \/
      (exists a b : nat, (a < b <= length (loc T r))%nat /\ v - od q = Z.of_nat a /\
       v + p_send A pl q - 1 - od q = Z.of_nat b - 1 /\ p_from_begin A pl <= q <= p_from_end A pl /\ forall t, PC q t = pt r a b t)).
    { assert (EPC : forall t, PC q t = ofl t (piece q q r)) by (intros t; unfold PC, lpiece; rewrite Er; reflexivity).
      assert (NN : 0 <= ovl q q) by (unfold PartLemmas.ovl, ov; lia).
      destruct (Z.eq_dec (ovl q q) 0) as [Z0|NZ].
      - left. split; [lia|]. intros t. rewrite EPC.
        assert (EN : piece q q r = []) by (apply zlen_nil; rewrite (piece_len T ranks cn Hok Hcn Hlen) by (assumption || lia); exact Z0).
        rewrite EN. reflexivity.
      - right. pose proof (piece_bounds T ranks cn Hok Hlen q q r Er ltac:(lia) ltac:(lia)) as PB. cbv zeta in PB.
        set (a := Z.to_nat (Z.max (od q) (nw q) - od q)) in *.
        set (b := Z.to_nat (Z.max (od q) (nw q) - od q + ovl q q)) in *.
        destruct PB as (Hab & EP & Ea & Eb). exists a, b. split; [exact Hab|]. rewrite Fv2, F5 by lia. split; [exact Ea|]. split; [exact Eb|].
        split.
        + destruct (Z.le_gt_cases (p_from_begin A pl) q); [destruct (Z.le_gt_cases q (p_from_end A pl)); [lia|]|]; rewrite F4 in NZ by lia; lia.
        + intros t. rewrite EPC, EP. destruct (Z.le_gt_cases 0 t); [destruct (Z.lt_ge_cases t T)|].
          * apply (pt_ofl T r a b Hab); lia.
          * unfold pt. replace (k_trees A r t) with (@nil A).
            2:{ symmetry. destruct Hr as [(_ & _ & N)|(? & ? & N)]; [apply N|]. destruct (nil_dec (k_trees A r t)) as [|n]; [assumption|apply N in n; lia]. }
            rewrite sub_nil. apply ofl_none. intros x Hx Q. apply in_sub in Hx. apply loc_from_labels in Hx. lia.
          * unfold pt. replace (k_trees A r t) with (@nil A).
            2:{ symmetry. destruct Hr as [(_ & _ & N)|(? & ? & N)]; [apply N|]. destruct (nil_dec (k_trees A r t)) as [|n]; [assumption|apply N in n; lia]. }
            rewrite sub_nil. apply ofl_none. intros x Hx Q. apply in_sub in Hx. apply loc_from_labels in Hx. lia. }
    destruct (count_new_spec T q gft pl (fun p => sent A pls p q) PC Hzero Hfrom HT HTm Hfbe) as (c & EC & C1 & C2 & C3).
    destruct (keep_local_spec T q r pl PC Hfbe Hr (od q) v Fv Hown c C1 C2) as (tr & EK & HK); [tauto|].
    destruct (copy_procs_spec T q gft r pl (fun p => sent A pls p q) PC Hzero Hfrom HT Hfbe (od q) v Hown c C1 C2
      (trips (p_from_begin A pl) (p_from_end A pl)) (p_from_begin A pl) tr (fun _ => 0)) as (tr' & bef' & EP & HP).
    { lia. } { unfold trips. lia. }
    { intros t. destruct (HK t) as [K1 K2]. unfold inv, sofar. rewrite Z.sub_diag. cbn [Z.to_nat cat].
      split; [reflexivity|]. split; [exact K1|]. split; [apply holds_nil|exact K2]. }
    assert (ER : read_trees A (Z.to_nat T) 0 tr' = Some (map (all_of pl PC) (map (fun i : nat => 0 + Z.of_nat i) (seq 0 (Z.to_nat T))))).
    { apply (read_trees_spec q pl PC c C1). intros t. exists (bef' t). apply HP. }
    assert (EALL : forall t, all_of pl PC t = ofl t (sub (Z.to_nat (nw q)) (Z.to_nat (nw (q + 1))) (glob T ranks))).
    { intros t. unfold all_of, PC. rewrite <- (ofl_cat t (lpiece q)). f_equal. rewrite <- (lpiece_all q) by lia.
      assert (EL : length ranks = (Z.to_nat (p_from_begin A pl) + (trips (p_from_begin A pl) (p_from_end A pl) + Z.to_nat (P - 1 - p_from_end A pl)))%nat)
        by (unfold trips, zlen in *; lia).
      rewrite EL, !cat_app. rewrite (cat_nil (lpiece q) _ 0).
      2:{ intros p Hp. apply LPnil. rewrite F3. replace ((p_from_begin A pl <=? p) && (p <=? p_from_end A pl)) with false by lia. lia. }
      rewrite (cat_nil (lpiece q) (Z.to_nat (P - 1 - p_from_end A pl))).
      2:{ intros p Hp. apply LPnil. rewrite F3. unfold trips in Hp. replace ((p_from_begin A pl <=? p) && (p <=? p_from_end A pl)) with false by lia. lia. }
      rewrite app_nil_r. cbn [app]. f_equal. lia. }
    unfold given_recv. rewrite Hbase, EC, EK, EP, ER.
    assert (EK2 : forall t, match zget (map (all_of pl PC) (map (fun i : nat => 0 + Z.of_nat i) (seq 0 (Z.to_nat T)))) t with
                  | Some x => x | None => [] end = all_of pl PC t).
    { intros t. unfold zget. destruct (t <? 0) eqn:C.
      - symmetry. destruct (nil_dec (all_of pl PC t)) as [|n]; [assumption|]. apply all_of_nonempty in n; [|exact Hfbe].
        destruct n as (p & _ & Hp). apply HT in Hp. lia.
      - rewrite !nth_error_map. destruct (Nat.lt_ge_cases (Z.to_nat t) (Z.to_nat T)) as [L|G].
        + rewrite (nth_error_nth' _ 0%nat) by (rewrite seq_length; exact L). rewrite seq_nth by exact L. cbn [option_map]. f_equal. lia.
        + replace (nth_error (seq 0 (Z.to_nat T)) (Z.to_nat t)) with (@None nat) by (symmetry; apply nth_error_None; rewrite seq_length; exact G).
          cbn [option_map]. symmetry. destruct (nil_dec (all_of pl PC t)) as [|n]; [assumption|]. apply all_of_nonempty in n; [|exact Hfbe].
          destruct n as (p & _ & Hp). apply HT in Hp. lia. }
    eexists. split; [reflexivity|]. cbn [k_trees k_first k_last]. split.
    - intros t. rewrite EK2. apply EALL.
    - destruct C3 as [(C3 & C4 & C5)|(C3 & C4 & C5 & C6 & C7)].
      + left. split; [exact C3|]. split; [exact C4|]. intros t. rewrite EK2. apply C5.
      + right. split; [exact C3|]. split; [exact C4|]. rewrite !EK2. split; [exact C5|]. split; [exact C6|].
        intros t. rewrite EK2. apply C7.
  Qed.
End Final.
