(** * The trees of one rank in p4est_partition_given: packing *)

From Coq Require Import ZArith List Bool Lia Arith ZifyBool Sorting.Sorted.
From Verif Require Import Quad Search SearchLemmas Adapt Partition PartLemmas.
Import ListNotations.
Open Scope Z_scope.

Section Loc.
  Context {A : Type}.

  (** the elements of the trees s, s+1, ..., s+n-1, each with the number of its tree *)
  Fixpoint loc_from (s : Z) (n : nat) (trees : Z -> list A) : list (Z * A) :=
    match n with
    | O => []
    | S n' => map (pair s) (trees s) ++ loc_from (s + 1) n' trees
    end.
  Definition loc (T : Z) (r : rk A) : list (Z * A) := loc_from 0 (Z.to_nat T) (k_trees A r).

  (** a rank is empty, or holds a contiguous range of nonempty trees *)
  Definition rk_ok (T : Z) (r : rk A) : Prop :=
    (k_first A r = -1 /\ k_last A r = -2 /\ forall t, k_trees A r t = []) \/
    (0 <= k_first A r <= k_last A r /\ k_last A r < T /\
     forall t, k_trees A r t <> [] <-> k_first A r <= t <= k_last A r).

  Definition offt (trees : Z -> list A) (s t : Z) : nat := length (loc_from s (Z.to_nat (t - s)) trees).

  Lemma loc_from_app trees : forall n m s,
    loc_from s (n + m) trees = loc_from s n trees ++ loc_from (s + Z.of_nat n) m trees.
  Proof.
    induction n as [|n IH]; intros m s; cbn [Nat.add loc_from].
    - rewrite Z.add_0_r. reflexivity.
    - rewrite IH, <- app_assoc. do 3 f_equal. lia.
  Qed.

  Lemma loc_from_ext trees trees' : forall n s, (forall t, s <= t < s + Z.of_nat n -> trees t = trees' t) ->
    loc_from s n trees = loc_from s n trees'.
  Proof.
    induction n as [|n IH]; intros s H; cbn [loc_from]; [reflexivity|].
    rewrite (H s) by lia. f_equal. apply IH. intros t Ht. apply H. lia.
  Qed.

  Lemma loc_from_nil trees : forall n s, (forall t, s <= t < s + Z.of_nat n -> trees t = []) -> loc_from s n trees = [].
  Proof.
    induction n as [|n IH]; intros s H; cbn [loc_from]; [reflexivity|].
    rewrite (H s) by lia. cbn [map app]. apply IH. intros t Ht. apply H. lia.
  Qed.

  Lemma offt_step trees s t : s <= t -> offt trees s (t + 1) = (offt trees s t + length (trees t))%nat.
  Proof.
    intros H. unfold offt. replace (Z.to_nat (t + 1 - s)) with (Z.to_nat (t - s) + 1)%nat by lia.
    rewrite loc_from_app, app_length. cbn [loc_from]. rewrite app_nil_r, map_length.
    replace (s + Z.of_nat (Z.to_nat (t - s))) with t by lia. reflexivity.
  Qed.

  Lemma offt_cons trees s t : s < t -> offt trees s t = (length (trees s) + offt trees (s + 1) t)%nat.
  Proof.
    intros H. unfold offt. replace (Z.to_nat (t - s)) with (S (Z.to_nat (t - (s + 1)))) by lia.
    cbn [loc_from]. rewrite app_length, map_length. reflexivity.
  Qed.

  Lemma offt_refl trees s : offt trees s s = 0%nat.
  Proof. unfold offt. rewrite Z.sub_diag. reflexivity. Qed.

  Lemma loc_from_labels trees : forall n s x, In x (loc_from s n trees) ->
    s <= fst x < s + Z.of_nat n /\ In (snd x) (trees (fst x)).
  Proof.
    induction n as [|n IH]; intros s x H; cbn [loc_from] in H; [destruct H|].
    apply in_app_or in H. destruct H as [H|H].
    - apply in_map_iff in H. destruct H as (y & <- & Hy). cbn [fst snd]. split; [lia|auto].
    - apply IH in H. split; [lia|apply H].
  Qed.

  Definition ofl (t : Z) (l : list (Z * A)) : list A := map snd (filter (fun x => fst x =? t) l).

  Lemma ofl_app t l l' : ofl t (l ++ l') = ofl t l ++ ofl t l'.
  Proof. unfold ofl. rewrite filter_app, map_app. reflexivity. Qed.

  Lemma ofl_none t l : (forall x, In x l -> fst x <> t) -> ofl t l = [].
  Proof.
    induction l as [|x l IH]; intros H; [reflexivity|]. unfold ofl. cbn [filter].
    replace (fst x =? t) with false by (specialize (H x (or_introl eq_refl)); lia).
    apply IH. intros y Hy. apply H. right. exact Hy.
  Qed.

  Lemma ofl_pair t (l : list A) : ofl t (map (pair t) l) = l.
  Proof.
    induction l as [|x l IH]; [reflexivity|]. unfold ofl in *. cbn [map filter fst].
    rewrite Z.eqb_refl. cbn [map snd]. f_equal. exact IH.
  Qed.

  Lemma ofl_sub trees : forall n s a b t, s <= t < s + Z.of_nat n ->
    ofl t (sub a b (loc_from s n trees)) = sub (a - offt trees s t) (b - offt trees s t) (trees t).
  Proof.
    induction n as [|n IH]; intros s a b t H; [lia|]. cbn [loc_from]. rewrite sub_app, ofl_app, map_length.
    destruct (Z.eq_dec t s) as [->|N].
    - rewrite sub_map, ofl_pair, offt_refl, !Nat.sub_0_r, ofl_none; [apply app_nil_r|].
      intros x Hx. apply in_sub in Hx. apply loc_from_labels in Hx. lia.
    - rewrite sub_map, ofl_none.
      + rewrite IH by lia. cbn [app]. rewrite (offt_cons trees s t) by lia. rewrite <- !Nat.sub_add_distr. reflexivity.
      + intros x Hx. apply in_map_iff in Hx. destruct Hx as (y & <- & _). cbn [fst]. lia.
  Qed.

  (** a list whose labels do not decrease is the sequence of its labels *)
  Definition lsorted (l : list (Z * A)) : Prop := StronglySorted (fun x y => fst x <= fst y) l.

  Lemma lsorted_split l : lsorted l -> forall n s, (forall x, In x l -> s <= fst x < s + Z.of_nat n) ->
    loc_from s n (fun t => ofl t l) = l.
  Proof.
    induction 1 as [|x l SS IH F]; intros n s H.
    - apply loc_from_nil. reflexivity.
    - pose proof (H x (or_introl eq_refl)) as Hx. rewrite Forall_forall in F.
      (* trees below fst x are empty *)
      assert (E : exists k, fst x = s + Z.of_nat k /\ (k < n)%nat) by (exists (Z.to_nat (fst x - s)); lia).
      destruct E as (k & Ek & Lk). replace n with (k + S (n - k - 1))%nat by lia.
      rewrite loc_from_app. rewrite loc_from_nil; [|intros t Ht; apply ofl_none; intros y [<-|Hy]; [lia|specialize (F y Hy); lia]].
      cbn [app]. rewrite <- Ek. cbn [loc_from].
      assert (O1 : ofl (fst x) (x :: l) = snd x :: ofl (fst x) l).
      { unfold ofl. cbn [filter]. rewrite Z.eqb_refl. reflexivity. }
      rewrite O1. cbn [map app]. destruct x as [lx vx]. cbn [fst snd] in *. f_equal.
      transitivity (loc_from lx (S (n - k - 1)) (fun t => ofl t l)); [|apply IH].
      + cbn [loc_from]. f_equal. apply loc_from_ext. intros t Ht. unfold ofl. cbn [filter fst].
        replace (lx =? t) with false by lia. reflexivity.
      + intros y Hy. specialize (F y Hy). specialize (H y (or_intror Hy)). lia.
  Qed.

  Lemma lsorted_loc trees : forall n s, lsorted (loc_from s n trees).
  Proof.
    induction n as [|n IH]; intros s; cbn [loc_from]; [constructor|].
    assert (G : forall l, lsorted (map (pair s) l ++ loc_from (s + 1) n trees)).
    { induction l as [|v l IHl]; cbn [map app]; [apply IH|]. constructor; [exact IHl|].
      apply Forall_forall. intros y Hy. cbn [fst]. apply in_app_or in Hy. destruct Hy as [Hy|Hy].
      - apply in_map_iff in Hy. destruct Hy as (z & <- & _). cbn [fst]. lia.
      - apply loc_from_labels in Hy. lia. }
    apply G.
  Qed.
End Loc.

Section Pack.
  Context {A : Type}.
  Variable T : Z.
  Variable r : rk A.
  Hypothesis Hok : rk_ok T r.
  Local Notation kf := (k_first A r).
  Local Notation kl := (k_last A r).
  Local Notation trees := (k_trees A r).
  Local Notation off t := (offt trees 0 t).

  Lemma loc_length t : T <= t -> length (loc T r) = off t.
  Proof.
    intros H. unfold loc, offt. rewrite Z.sub_0_r.
    destruct (Z.lt_ge_cases T 0) as [N|N].
    - replace (Z.to_nat T) with 0%nat by lia. cbn [loc_from length]. rewrite loc_from_nil; [reflexivity|].
      intros u Hu. destruct Hok as [(_ & _ & E)|(H1 & H2 & _)]; [apply E|lia].
    - replace (Z.to_nat t) with (Z.to_nat T + Z.to_nat (t - T))%nat by lia. rewrite loc_from_app, app_length.
      rewrite (loc_from_nil trees (Z.to_nat (t - T))); [cbn; lia|].
      intros u Hu. destruct Hok as [(_ & _ & E)|(H1 & H2 & E)]; [apply E|].
      destruct (trees u) eqn:Q; [reflexivity|]. assert (trees u <> []) by congruence. apply E in H0. lia.
  Qed.

  Lemma off_first : 0 <= kf -> off kf = 0%nat.
  Proof.
    intros H. unfold offt. rewrite loc_from_nil; [reflexivity|].
    intros u Hu. destruct Hok as [(_ & _ & E)|(H1 & H2 & E)]; [apply E|].
    destruct (trees u) eqn:Q; [reflexivity|]. assert (trees u <> []) by congruence. apply E in H0. lia.
  Qed.

  Lemma off_end : 0 <= kf -> length (loc T r) = off (kl + 1).
  Proof.
    intros H. destruct Hok as [(? & ? & ?)|(H1 & H2 & E)]; [lia|].
    rewrite (loc_length T) by lia. unfold offt. replace (Z.to_nat (T - 0)) with (Z.to_nat (kl + 1 - 0) + Z.to_nat (T - kl - 1))%nat by lia.
    rewrite loc_from_app, app_length. rewrite (loc_from_nil trees (Z.to_nat (T - kl - 1))); [cbn; lia|].
    intros u Hu. destruct (trees u) eqn:Q; [reflexivity|]. assert (trees u <> []) by congruence. apply E in H0. lia.
  Qed.

  Lemma off_mono s t : 0 <= s <= t -> (off s <= off t)%nat.
  Proof.
    intros H. unfold offt. replace (Z.to_nat (t - 0)) with (Z.to_nat (s - 0) + Z.to_nat (t - s))%nat by lia.
    rewrite loc_from_app, app_length. lia.
  Qed.

  Lemma tree_lasts_loop_spec : forall n t lt, 0 <= kf < t -> t + Z.of_nat n = kl + 1 ->
    (forall u, kf <= u < t -> lt u = Z.of_nat (off (u + 1)) - 1) ->
    forall u, kf <= u <= kl -> tree_lasts_loop A trees n t lt u = Z.of_nat (off (u + 1)) - 1.
  Proof.
    induction n as [|n IH]; intros t lt Ht Hn H u Hu; cbn [tree_lasts_loop]; [apply H; lia|].
    apply IH; [lia|lia| |exact Hu]. intros w Hw. unfold upd. destruct (w =? t) eqn:E.
    - replace w with t by lia. rewrite H by lia. replace (t - 1 + 1) with t by lia.
      rewrite offt_step by lia. unfold zlen. lia.
    - apply H. lia.
  Qed.

  Lemma tree_lasts_spec u : 0 <= kf -> kf <= u <= kl -> tree_lasts A r u = Z.of_nat (off (u + 1)) - 1.
  Proof.
    intros H0 Hu. unfold tree_lasts. replace (kf >=? 0) with true by lia.
    apply tree_lasts_loop_spec; [lia|unfold trips; lia| |exact Hu].
    intros w Hw. replace w with kf by lia. unfold upd. rewrite Z.eqb_refl, offt_step, off_first by lia.
    unfold zlen. lia.
  Qed.

  (** the part of tree t that lies in the local range [a, b) *)
  Variables (a b : nat).
  Hypothesis Hab : (a < b <= length (loc T r))%nat.
  Definition pt (t : Z) : list A := sub (a - off t) (b - off t) (trees t).

  Lemma nonempty_first : 0 <= kf <= kl /\ kl < T.
  Proof.
    destruct Hok as [(F & L & E)|(H1 & H2 & E)]; [|lia].
    exfalso. unfold loc in Hab. rewrite loc_from_nil in Hab; [cbn in Hab; lia|]. intros; apply E.
  Qed.

  Lemma pt_ofl t : 0 <= t < T -> ofl t (sub a b (loc T r)) = pt t.
  Proof. intros H. unfold loc. rewrite ofl_sub by lia. reflexivity. Qed.

  (** the computed piece of a tree *)
  Lemma piece_arith t mb :
    kf <= t <= kl -> mb = Z.of_nat (Nat.max a (Nat.min b (off t))) \/ mb = Z.of_nat a ->
    let fb := (if t =? kf then 0 else tree_lasts A r (t - 1) + 1) in
    let fe := tree_lasts A r t in
    fb = Z.of_nat (off t) /\ fe = Z.of_nat (off (t + 1)) - 1 /\
    (((fb <=? Z.of_nat b - 1) && (fe >=? mb) = true /\
     let tfb := Z.max mb fb - fb in
     let tfe := Z.min (Z.of_nat b - 1) fe - fb in
     tfb = Z.of_nat (a - off t) /\ 0 < tfe - tfb + 1 /\ tfe - tfb + 1 = zlen (pt t) /\
     tfb + (tfe - tfb + 1) <= zlen (trees t) /\
     slice (trees t) tfb (tfe - tfb + 1) = Some (pt t) /\
     Z.of_nat (Nat.max a (Nat.min b (off t))) + (tfe - tfb + 1) = Z.of_nat (Nat.max a (Nat.min b (off (t + 1)))))
    \/ ((fb <=? Z.of_nat b - 1) && (fe >=? mb) = false /\ pt t = [] /\
       Nat.max a (Nat.min b (off (t + 1))) = Nat.max a (Nat.min b (off t)))).
  Proof.
    intros Ht Hmb fb fe. pose proof nonempty_first as HF.
    assert (EF : fb = Z.of_nat (off t)).
    { unfold fb. destruct (t =? kf) eqn:E.
      - replace t with kf by lia. rewrite off_first by lia. reflexivity.
      - rewrite tree_lasts_spec by lia. replace (t - 1 + 1) with t by lia. lia. }
    assert (EE : fe = Z.of_nat (off (t + 1)) - 1) by (apply tree_lasts_spec; lia).
    assert (ST : off (t + 1) = (off t + length (trees t))%nat) by (apply offt_step; lia).
    assert (NE : (0 < length (trees t))%nat).
    { destruct Hok as [(? & ? & ?)|(H1 & H2 & E)]; [lia|]. pose proof (proj2 (E t) Ht).
      destruct (trees t); [congruence|cbn; lia]. }
    split; [exact EF|]. split; [exact EE|].
    clearbody fb fe. subst fb fe. unfold pt, zlen in *. rewrite sub_length.
    destruct ((Z.of_nat (off t) <=? Z.of_nat b - 1) && (Z.of_nat (off (t + 1)) - 1 >=? mb)) eqn:C.
    - left. split; [reflexivity|].
      assert (X1 : Z.max mb (Z.of_nat (off t)) - Z.of_nat (off t) = Z.of_nat (a - off t)) by lia.
      rewrite X1. split; [reflexivity|]. split; [lia|]. split; [lia|]. split; [lia|]. split; [|lia].
      rewrite slice_sub; [|lia|lia|unfold zlen; lia]. f_equal. unfold sub.
      rewrite Nat2Z.id.
      assert (Y : forall n m, (n = m \/ (length (trees t) - (a - off t) <= n /\ length (trees t) - (a - off t) <= m))%nat ->
        firstn n (skipn (a - off t) (trees t)) = firstn m (skipn (a - off t) (trees t))).
      { intros n m [->|[Hn Hm]]; [reflexivity|]. rewrite !firstn_all2; [reflexivity| |]; rewrite skipn_length; lia. }
      apply Y. lia.
    - right. split; [reflexivity|]. split; [|lia].
      destruct (Nat.le_gt_cases b (off t)); [apply sub_empty; lia|apply sub_beyond; lia].
  Qed.

  Lemma local_loop_spec nst : forall n t cnt, kf <= t -> t + Z.of_nat n = kl + 1 -> kl - kf < nst ->
    (forall u, t <= u -> cnt (u - kf) = 0) ->
    exists cnt', local_loop A r (tree_lasts A r) (Z.of_nat a) (Z.of_nat b - 1) nst n t cnt = Some cnt' /\
      (forall u, t <= u <= kl -> cnt' (u - kf) = zlen (pt u)) /\
      (forall i, ~ t <= i + kf <= kl -> cnt' i = cnt i).
  Proof.
    induction n as [|n IH]; intros t cnt Ht Hn Hst Hz; cbn [local_loop].
    - exists cnt. split; [reflexivity|]. split; intros; [lia|reflexivity].
    - pose proof (piece_arith t (Z.of_nat a) ltac:(lia) ltac:(right; reflexivity)) as PA. cbv zeta in PA.
      destruct PA as (_ & _ & [(C & _ & P1 & P2 & _)|(C & P1 & _)]); rewrite C.
      + replace (t - kf <? nst) with true by lia.
        match goal with |- exists _, local_loop _ _ _ _ _ _ _ _ (upd cnt _ ?v) = _ /\ _ => set (V := v) in * end.
        destruct (IH (t + 1) (upd cnt (t - kf) V)) as (cnt' & E & H1 & H2); [lia|lia|lia| |].
        { intros u Hu. unfold upd. replace (u - kf =? t - kf) with false by lia. apply Hz. lia. }
        exists cnt'. split; [exact E|]. split.
        * intros u Hu. destruct (Z.eq_dec u t) as [->|N]; [|apply H1; lia].
          rewrite H2 by lia. unfold upd. rewrite Z.eqb_refl. exact P2.
        * intros i Hi. rewrite H2 by lia. unfold upd. replace (i =? t - kf) with false by lia. reflexivity.
      + destruct (IH (t + 1) cnt) as (cnt' & E & H1 & H2); [lia|lia|lia|intros; apply Hz; lia|].
        exists cnt'. split; [exact E|]. split.
        * intros u Hu. destruct (Z.eq_dec u t) as [->|N]; [|apply H1; lia].
          rewrite H2 by lia. rewrite Hz by lia. rewrite P1. reflexivity.
        * intros i Hi. apply H2. lia.
  Qed.

  (** pieces of the trees t, t+1, ..., n of them *)
  Fixpoint pts (t : Z) (n : nat) : list A := match n with O => [] | S n' => pt t ++ pts (t + 1) n' end.

  Lemma pts_snd : forall n t, pts t n = map snd (loc_from t n pt).
  Proof.
    induction n as [|n IH]; intros t; cbn [pts loc_from]; [reflexivity|].
    rewrite map_app, map_map, map_id, IH. reflexivity.
  Qed.

  Lemma pts_all : pts kf (trips kf kl) = map snd (sub a b (loc T r)).
  Proof.
    pose proof nonempty_first as HF.
    assert (SS : lsorted (sub a b (loc T r))).
    { pose proof (lsorted_loc trees (Z.to_nat T) 0) as L. unfold loc, lsorted, sub in *.
      set (X := loc_from 0 (Z.to_nat T) trees) in *. clearbody X. clear - L.
      assert (G1 : forall n, StronglySorted (fun x y : Z * A => fst x <= fst y) (skipn n X)).
      { intros n. revert X L. induction n as [|n IH]; intros X L; [exact L|]. destruct X as [|x X]; [exact L|].
        cbn [skipn]. apply IH. inversion L; assumption. }
      generalize (skipn a X) (G1 a). intros Y LY. clear - LY.
      generalize (b - a)%nat. intros n. revert n. induction LY as [|x Y LY IH F]; intros n; destruct n; cbn [firstn]; try constructor.
      - apply IH.
      - apply Forall_forall. intros y Hy. rewrite Forall_forall in F. apply F.
        rewrite <- (firstn_skipn n Y). apply in_or_app. left. exact Hy. }
    rewrite <- (lsorted_split (sub a b (loc T r)) SS (trips kf kl) kf).
    - rewrite pts_snd. f_equal. apply loc_from_ext. intros t Ht. symmetry. apply pt_ofl. unfold trips in Ht. lia.
    - intros x Hx. apply in_sub in Hx. apply loc_from_labels in Hx. destruct Hx as [Hx Hi].
      destruct Hok as [(? & ? & ?)|(H1 & H2 & E)]; [lia|].
      assert (trees (fst x) <> []) by (intros Q; rewrite Q in Hi; destruct Hi). apply E in H. unfold trips. lia.
  Qed.

  Lemma pack_loop_spec nst : forall n t cnt buf, kf <= t -> t + Z.of_nat n = kl + 1 -> kl - kf < nst ->
    (forall u, t <= u -> cnt (u - kf) = 0) ->
    exists cnt', pack_loop A r (tree_lasts A r) (Z.of_nat (Nat.max a (Nat.min b (off t)))) (Z.of_nat b - 1) nst n t cnt buf
        = Some (cnt', buf ++ pts t n) /\
      (forall u, t <= u <= kl -> cnt' (u - kf) = zlen (pt u)) /\
      (forall i, ~ t <= i + kf <= kl -> cnt' i = cnt i).
  Proof.
    induction n as [|n IH]; intros t cnt buf Ht Hn Hst Hz; cbn [pack_loop pts].
    - exists cnt. rewrite app_nil_r. split; [reflexivity|]. split; intros; [lia|reflexivity].
    - pose proof (piece_arith t _ ltac:(lia) (or_introl eq_refl)) as PA. cbv zeta in PA.
      destruct PA as (_ & _ & [(C & _ & P1 & P2 & _ & P3 & P4)|(C & P1 & P4)]); rewrite C.
      + rewrite P3. replace (t - kf <? nst) with true by lia. rewrite P4, P2.
        destruct (IH (t + 1) (upd cnt (t - kf) (zlen (pt t))) (buf ++ pt t)) as (cnt' & E & H1 & H2); [lia|lia|lia| |].
        { intros u Hu. unfold upd. replace (u - kf =? t - kf) with false by lia. apply Hz. lia. }
        exists cnt'. rewrite E, <- app_assoc. split; [reflexivity|]. split.
        * intros u Hu. destruct (Z.eq_dec u t) as [->|N]; [|apply H1; lia].
          rewrite H2 by lia. unfold upd. rewrite Z.eqb_refl. reflexivity.
        * intros i Hi. rewrite H2 by lia. unfold upd. replace (i =? t - kf) with false by lia. reflexivity.
      + destruct (IH (t + 1) cnt buf) as (cnt' & E & H1 & H2); [lia|lia|lia|intros; apply Hz; lia|].
        rewrite P4 in E. exists cnt'. rewrite E, P1. split; [reflexivity|]. split.
        * intros u Hu. destruct (Z.eq_dec u t) as [->|N]; [|apply H1; lia].
          rewrite H2 by lia. rewrite Hz by lia. rewrite P1. reflexivity.
        * intros i Hi. apply H2. lia.
  Qed.
End Pack.
