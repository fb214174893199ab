(** * The receiving half of p4est_partition_given *)

From Coq Require Import ZArith List Bool Lia Arith ZifyBool.
From Verif Require Import Quad Search Adapt ListLemmas Partition PartLemmas PartTrees.
Import ListNotations.
Open Scope Z_scope.

Definition nil_dec {A} (l : list A) : {l = []} + {l <> []}.
Proof. destruct l; [left; reflexivity|right; discriminate]. Defined.

(** concatenation of f s, f (s+1), ... (n lists) *)
Fixpoint cat {A} (f : Z -> list A) (s : Z) (n : nat) : list A :=
  match n with O => [] | S n' => f s ++ cat f (s + 1) n' end.

Lemma cat_app {A} (f : Z -> list A) : forall n m s, cat f s (n + m) = cat f s n ++ cat f (s + Z.of_nat n) m.
Proof.
  induction n as [|n IH]; intros m s; cbn [Nat.add cat]; [rewrite Z.add_0_r; reflexivity|].
  rewrite IH, <- app_assoc. do 3 f_equal. lia.
Qed.
Lemma cat_snoc {A} (f : Z -> list A) s n : cat f s (S n) = cat f s n ++ f (s + Z.of_nat n).
Proof. replace (S n) with (n + 1)%nat by lia. rewrite cat_app. cbn [cat]. rewrite app_nil_r. reflexivity. Qed.
Lemma cat_nil {A} (f : Z -> list A) : forall n s, (forall p, s <= p < s + Z.of_nat n -> f p = []) -> cat f s n = [].
Proof.
  induction n as [|n IH]; intros s H; cbn [cat]; [reflexivity|]. rewrite (H s) by lia. apply IH. intros p Hp. apply H. lia.
Qed.
Lemma cat_ext {A} (f g : Z -> list A) : forall n s, (forall p, s <= p < s + Z.of_nat n -> f p = g p) -> cat f s n = cat g s n.
Proof.
  induction n as [|n IH]; intros s H; cbn [cat]; [reflexivity|]. rewrite (H s) by lia. f_equal. apply IH.
  intros p Hp. apply H. lia.
Qed.

Lemma zlen_app {A} (l l' : list A) : zlen (l ++ l') = zlen l + zlen l'.
Proof. unfold zlen. rewrite app_length. lia. Qed.
Lemma zlen_nonneg {A} (l : list A) : 0 <= zlen l.
Proof. unfold zlen. lia. Qed.
Lemma zlen_nil {A} (l : list A) : zlen l = 0 -> l = [].
Proof. destruct l; [reflexivity|]. unfold zlen. cbn [length]. lia. Qed.

(** the entries of X from position o on are those of l *)
Definition holds {A} (X : list (option A)) (o : Z) (l : list A) : Prop :=
  forall i x, nth_error l i = Some x -> nth_error X (Z.to_nat o + i) = Some (Some x).

Lemma holds_nil {A} (X : list (option A)) o : holds X o [].
Proof. intros i x H. destruct i; discriminate. Qed.

Lemma holds_empty {A} o (l : list A) : holds [] o l -> l = [].
Proof.
  intros H. destruct l as [|x l]; [reflexivity|]. specialize (H 0%nat x eq_refl).
  destruct (Z.to_nat o + 0)%nat; discriminate.
Qed.

Lemma nth_blit {A} (l l' : list A) b s : blit l b s = Some l' -> 0 <= b /\ length l' = length l /\ forall i,
  nth_error l' i = if (Z.of_nat i <? b) || (b + zlen s <=? Z.of_nat i) then nth_error l i else nth_error s (i - Z.to_nat b).
Proof.
  unfold blit. destruct ((0 <=? b) && (b + zlen s <=? zlen l)) eqn:C; [|discriminate]. intros E. injection E as <-.
  unfold zlen in *. split; [lia|]. split.
  - rewrite !app_length, firstn_length, skipn_length. lia.
  - intros i. destruct (Z.of_nat i <? b) eqn:C1; cbn [orb].
    + rewrite nth_error_app1 by (rewrite firstn_length; lia). apply nth_firstn. lia.
    + rewrite nth_error_app2 by (rewrite firstn_length; lia). rewrite firstn_length.
      replace (i - Nat.min (Z.to_nat b) (length l))%nat with (i - Z.to_nat b)%nat by lia.
      destruct (b + Z.of_nat (length s) <=? Z.of_nat i) eqn:C2.
      * rewrite nth_error_app2 by lia. rewrite nth_skipn. f_equal. lia.
      * apply nth_error_app1. lia.
Qed.

Lemma blit_ok {A} (l : list A) b s : 0 <= b -> b + zlen s <= zlen l -> exists l', blit l b s = Some l'.
Proof. intros. unfold blit. replace ((0 <=? b) && (b + zlen s <=? zlen l)) with true by lia. eauto. Qed.

Lemma resize_same {A} (l : list (option A)) n : zlen l = n -> resize l n = l.
Proof.
  unfold zlen, resize. intros H. replace (Z.to_nat n) with (length l) by lia.
  rewrite firstn_all, Nat.sub_diag. apply app_nil_r.
Qed.
Lemma resize_len {A} (l : list (option A)) n : 0 <= n -> zlen (resize l n) = n.
Proof. unfold zlen, resize. intros H. rewrite app_length, firstn_length, repeat_length. lia. Qed.
Lemma resize_nth {A} (l : list (option A)) n i : Z.of_nat i < n -> (i < length l)%nat -> nth_error (resize l n) i = nth_error l i.
Proof.
  unfold resize. intros H L. rewrite nth_error_app1 by (rewrite firstn_length; lia).
  apply nth_firstn. lia.
Qed.

Lemma all_some_map {A} (l : list A) : all_some (map Some l) = Some l.
Proof. induction l as [|x l IH]; [reflexivity|]. cbn [map all_some]. rewrite IH. reflexivity. Qed.

Lemma holds_all {A} (X : list (option A)) l : holds X 0 l -> zlen X = zlen l -> X = map Some l.
Proof.
  unfold zlen. intros H E. apply list_ext. intros i. rewrite nth_error_map.
  destruct (nth_error l i) as [x|] eqn:Q.
  - cbn. apply (H i x Q).
  - cbn. apply nth_error_None. apply nth_error_None in Q. lia.
Qed.

Section Recv.
  Context {A : Type}.
  Variables (T rank : Z) (olds gft : list Z).
  Variable r : rk A.
  Variable pl : plan A.
  Variable mail : Z -> option (msg A).
  Variable PC : Z -> Z -> list A.     (* PC p t: what arrives from process p for tree t *)
  Local Notation fb := (p_from_begin A pl).
  Local Notation fe := (p_from_end A pl).
  Local Notation np := (trips fb fe).

  (** what is known about the messages *)
  Hypothesis Hzero : forall p t, ~ p_recv A pl p > 0 -> PC p t = [].
  Hypothesis Hfrom : forall p, fb <= p <= fe -> p_recv A pl p > 0 ->
    exists ft nrt cnt quads, from_counts A gft rank pl mail p = Some (ft, nrt, cnt, quads) /\
      (forall it, 0 <= it < nrt -> cnt it = zlen (PC p (ft + it))) /\
      (forall t, ~ ft <= t < ft + nrt -> PC p t = []) /\
      (p <> rank -> quads = cat (PC p) ft (Z.to_nat nrt)).
  Hypothesis HT : forall p t, PC p t <> [] -> 0 <= t < T.
  Hypothesis HTm : T <= topidx_max.
  Hypothesis Hfbe : fb <= fe.

  Lemma count_trees_spec b ft cnt p : forall n it c, 0 <= it ->
    (forall j, it <= j < it + Z.of_nat n -> cnt j = zlen (PC p (ft + j))) ->
    exists c', count_trees T b ft cnt n it c = Some c' /\
      (forall t, c_cnt c' t = c_cnt c t + if (ft + it <=? t) && (t <? ft + it + Z.of_nat n) then zlen (PC p t) else 0) /\
      (forall t, c_bef c' t = c_bef c t + if b && ((ft + it <=? t) && (t <? ft + it + Z.of_nat n)) then zlen (PC p t) else 0) /\
      (forall m, m <= c_newfirst c' <-> m <= c_newfirst c /\
         forall t, ft + it <= t < ft + it + Z.of_nat n -> PC p t <> [] -> m <= t) /\
      (forall m, c_newlast c' <= m <-> c_newlast c <= m /\
         forall t, ft + it <= t < ft + it + Z.of_nat n -> PC p t <> [] -> t <= m).
  Proof.
    induction n as [|n IH]; intros it c Hit Hc; cbn [count_trees].
    - exists c. split; [reflexivity|]. split; [|split; [|split]].
      + intros t. replace ((ft + it <=? t) && (t <? ft + it + Z.of_nat 0)) with false by lia. lia.
      + intros t. replace ((ft + it <=? t) && (t <? ft + it + Z.of_nat 0)) with false by lia. rewrite andb_false_r. lia.
      + intros m. split; [intros H; split; [exact H|intros; lia]|tauto].
      + intros m. split; [intros H; split; [exact H|intros; lia]|tauto].
    - pose proof (Hc it ltac:(lia)) as E0. destruct (cnt it >? 0) eqn:C.
      + assert (NE : PC p (ft + it) <> []) by (intros Q; rewrite Q in E0; unfold zlen in E0; cbn in E0; lia).
        pose proof (HT p _ NE) as TT. replace ((0 <=? ft + it) && (ft + it <? T)) with true by lia.
        match goal with |- exists _, count_trees _ _ _ _ _ _ ?cc = _ /\ _ => set (c1 := cc) end.
        destruct (IH (it + 1) c1 ltac:(lia) ltac:(intros; apply Hc; lia)) as (c' & E & H1 & H2 & H3 & H4).
        exists c'. split; [exact E|]. subst c1. cbn [c_cnt c_bef c_newfirst c_newlast] in *.
        split; [|split; [|split]].
        * intros t. rewrite H1. unfold upd. destruct (t =? ft + it) eqn:Q.
          -- replace t with (ft + it) by lia. rewrite E0.
             replace ((ft + it <=? ft + it) && (ft + it <? ft + it + Z.of_nat (S n))) with true by lia.
             replace ((ft + (it + 1) <=? ft + it) && (ft + it <? ft + (it + 1) + Z.of_nat n)) with false by lia. lia.
          -- replace ((ft + it <=? t) && (t <? ft + it + Z.of_nat (S n)))
               with ((ft + (it + 1) <=? t) && (t <? ft + (it + 1) + Z.of_nat n)) by lia. reflexivity.
        * intros t. rewrite H2. unfold upd. destruct (t =? ft + it) eqn:Q.
          -- replace t with (ft + it) by lia. rewrite E0.
             replace ((ft + it <=? ft + it) && (ft + it <? ft + it + Z.of_nat (S n))) with true by lia.
             replace ((ft + (it + 1) <=? ft + it) && (ft + it <? ft + (it + 1) + Z.of_nat n)) with false by lia.
             rewrite andb_false_r, andb_true_r. destruct b; lia.
          -- replace ((ft + it <=? t) && (t <? ft + it + Z.of_nat (S n)))
               with ((ft + (it + 1) <=? t) && (t <? ft + (it + 1) + Z.of_nat n)) by lia. reflexivity.
        * intros m. rewrite H3. split.
          -- intros [A1 A2]. split; [lia|]. intros t Ht Nt. destruct (Z.eq_dec t (ft + it)) as [->|]; [lia|].
             apply A2; [lia|exact Nt].
          -- intros [A1 A2]. split; [|intros t Ht Nt; apply A2; [lia|exact Nt]].
             pose proof (A2 (ft + it) ltac:(lia) NE). lia.
        * intros m. rewrite H4. split.
          -- intros [A1 A2]. split; [lia|]. intros t Ht Nt. destruct (Z.eq_dec t (ft + it)) as [->|]; [lia|].
             apply A2; [lia|exact Nt].
          -- intros [A1 A2]. split; [|intros t Ht Nt; apply A2; [lia|exact Nt]].
             pose proof (A2 (ft + it) ltac:(lia) NE). lia.
      + assert (NE : PC p (ft + it) = []) by (apply zlen_nil; pose proof (zlen_nonneg (PC p (ft + it))); lia).
        destruct (IH (it + 1) c ltac:(lia) ltac:(intros; apply Hc; lia)) as (c' & E & H1 & H2 & H3 & H4).
        exists c'. split; [exact E|]. split; [|split; [|split]].
        * intros t. rewrite H1. destruct (t =? ft + it) eqn:Q.
          -- replace t with (ft + it) by lia. rewrite NE. destruct (_ && _), (_ && _); reflexivity.
          -- replace ((ft + it <=? t) && (t <? ft + it + Z.of_nat (S n)))
               with ((ft + (it + 1) <=? t) && (t <? ft + (it + 1) + Z.of_nat n)) by lia. reflexivity.
        * intros t. rewrite H2. destruct (t =? ft + it) eqn:Q.
          -- replace t with (ft + it) by lia. rewrite NE. destruct (_ && _), (_ && _); reflexivity.
          -- replace ((ft + it <=? t) && (t <? ft + it + Z.of_nat (S n)))
               with ((ft + (it + 1) <=? t) && (t <? ft + (it + 1) + Z.of_nat n)) by lia. reflexivity.
        * intros m. rewrite H3. split; intros [A1 A2]; (split; [lia|]); intros t Ht Nt.
          -- destruct (Z.eq_dec t (ft + it)) as [->|]; [congruence|]. apply A2; [lia|exact Nt].
          -- apply A2; [lia|exact Nt].
        * intros m. rewrite H4. split; intros [A1 A2]; (split; [lia|]); intros t Ht Nt.
          -- destruct (Z.eq_dec t (ft + it)) as [->|]; [congruence|]. apply A2; [lia|exact Nt].
          -- apply A2; [lia|exact Nt].
  Qed.

  (** what comes for tree t from the processes before the own one *)
  Definition PB (t p : Z) : list A := if p <? rank then PC p t else [].

  Lemma count_procs_spec : forall n p c, fb <= p -> p + Z.of_nat n <= fe + 1 ->
    exists c', count_procs A T gft rank pl mail n p c = Some c' /\
      (forall t, c_cnt c' t = c_cnt c t + zlen (cat (fun p => PC p t) p n)) /\
      (forall t, c_bef c' t = c_bef c t + zlen (cat (PB t) p n)) /\
      (forall m, m <= c_newfirst c' <-> m <= c_newfirst c /\ forall q t, p <= q < p + Z.of_nat n -> PC q t <> [] -> m <= t) /\
      (forall m, c_newlast c' <= m <-> c_newlast c <= m /\ forall q t, p <= q < p + Z.of_nat n -> PC q t <> [] -> t <= m).
  Proof.
    induction n as [|n IH]; intros p c Hp Hn; cbn [count_procs cat].
    - exists c. split; [reflexivity|]. unfold zlen. cbn. split; [intros; lia|]. split; [intros; lia|].
      split; intros m; (split; [intros H; split; [exact H|intros; lia]|tauto]).
    - destruct (p_recv A pl p >? 0) eqn:C.
      + destruct (Hfrom p ltac:(lia) ltac:(lia)) as (ft & nrt & cnt & quads & E & F1 & F2 & _). rewrite E.
        destruct (count_trees_spec (p <? rank) ft cnt p (Z.to_nat nrt) 0 c ltac:(lia)
                   ltac:(intros; apply F1; lia)) as (c1 & E1 & H1 & H2 & H3 & H4).
        rewrite E1. destruct (IH (p + 1) c1 ltac:(lia) ltac:(lia)) as (c2 & E2 & J1 & J2 & J3 & J4).
        rewrite Z.add_0_r in *.
        assert (PZ : forall t, (if (ft <=? t) && (t <? ft + Z.of_nat (Z.to_nat nrt)) then zlen (PC p t) else 0) = zlen (PC p t)).
        { intros t. destruct ((ft <=? t) && (t <? ft + Z.of_nat (Z.to_nat nrt))) eqn:Q; [reflexivity|].
          rewrite F2 by lia. reflexivity. }
        exists c2. split; [exact E2|]. split; [|split; [|split]].
        * intros t. rewrite J1, H1, zlen_app, PZ. lia.
        * intros t. rewrite J2, H2, zlen_app. unfold PB at 2.
          destruct (p <? rank); cbn [andb]; [rewrite PZ; lia|unfold zlen; cbn; lia].
        * intros m. rewrite J3, H3. split.
          -- intros [[B1 B2] B3]. split; [exact B1|]. intros q t Hq Nq. destruct (Z.eq_dec q p) as [->|].
             ++ apply B2; [|exact Nq]. destruct (Z.lt_ge_cases t ft); [exfalso; apply Nq, F2; lia|].
                destruct (Z.lt_ge_cases t (ft + nrt)); [lia|exfalso; apply Nq, F2; lia].
             ++ apply (B3 q t); [lia|exact Nq].
          -- intros [B1 B2]. split; [split; [exact B1|]|].
             ++ intros t Ht Nt. apply (B2 p t); [lia|exact Nt].
             ++ intros q t Hq Nq. apply (B2 q t); [lia|exact Nq].
        * intros m. rewrite J4, H4. split.
          -- intros [[B1 B2] B3]. split; [exact B1|]. intros q t Hq Nq. destruct (Z.eq_dec q p) as [->|].
             ++ apply B2; [|exact Nq]. destruct (Z.lt_ge_cases t ft); [exfalso; apply Nq, F2; lia|].
                destruct (Z.lt_ge_cases t (ft + nrt)); [lia|exfalso; apply Nq, F2; lia].
             ++ apply (B3 q t); [lia|exact Nq].
          -- intros [B1 B2]. split; [split; [exact B1|]|].
             ++ intros t Ht Nt. apply (B2 p t); [lia|exact Nt].
             ++ intros q t Hq Nq. apply (B2 q t); [lia|exact Nq].
      + destruct (IH (p + 1) c ltac:(lia) ltac:(lia)) as (c2 & E2 & J1 & J2 & J3 & J4).
        assert (PZ : forall t, PC p t = []) by (intros t; apply Hzero; lia).
        exists c2. split; [exact E2|]. split; [|split; [|split]].
        * intros t. rewrite J1, zlen_app, PZ. unfold zlen at 2. cbn. lia.
        * intros t. rewrite J2, zlen_app. unfold PB at 2. rewrite PZ. destruct (p <? rank); unfold zlen at 2; cbn; lia.
        * intros m. rewrite J3. split; intros [B1 B2]; (split; [exact B1|]); intros q t Hq Nq.
          -- destruct (Z.eq_dec q p) as [->|]; [congruence|]. apply (B2 q t); [lia|exact Nq].
          -- apply (B2 q t); [lia|exact Nq].
        * intros m. rewrite J4. split; intros [B1 B2]; (split; [exact B1|]); intros q t Hq Nq.
          -- destruct (Z.eq_dec q p) as [->|]; [congruence|]. apply (B2 q t); [lia|exact Nq].
          -- apply (B2 q t); [lia|exact Nq].
  Qed.

  (** everything that arrives for tree t *)
  Definition all_of (t : Z) : list A := cat (fun p => PC p t) fb np.

  Lemma all_of_nonempty t : all_of t <> [] <-> exists p, fb <= p <= fe /\ PC p t <> [].
  Proof.
    unfold all_of. split.
    - intros H. destruct (Forall_dec (fun p => PC p t = []) (fun p => nil_dec (PC p t))
        (map (fun i => fb + Z.of_nat i) (seq 0 np))) as [F|F].
      + exfalso. apply H. apply cat_nil. intros p Hp. rewrite Forall_forall in F. apply F. apply in_map_iff.
        exists (Z.to_nat (p - fb)). split; [lia|]. apply in_seq. lia.
      + rewrite <- Exists_Forall_neg in F.
        * apply Exists_exists in F. destruct F as (p & Hp & Np). apply in_map_iff in Hp. destruct Hp as (i & <- & Hi).
          apply in_seq in Hi. exists (fb + Z.of_nat i). split; [unfold trips in Hi; lia|exact Np].
        * intros p. destruct (PC p t); [left; reflexivity|right; discriminate].
    - intros (p & Hp & Np) E. unfold trips in E. replace (Z.to_nat (fe - fb + 1)) with (Z.to_nat (p - fb) + S (Z.to_nat (fe - p)))%nat in E by lia.
      rewrite cat_app in E. apply app_eq_nil in E. destruct E as [_ E]. cbn [cat] in E.
      replace (fb + Z.of_nat (Z.to_nat (p - fb))) with p in E by lia. apply app_eq_nil in E. tauto.
  Qed.

  Lemma count_new_spec : exists c, count_new A T gft rank pl mail = Some c /\
    (forall t, c_cnt c t = zlen (all_of t)) /\ (forall t, c_bef c t = zlen (cat (PB t) fb np)) /\
    ((c_newfirst c = -1 /\ c_newlast c = -2 /\ forall t, all_of t = []) \/
     (0 <= c_newfirst c <= c_newlast c /\ c_newlast c < T /\ all_of (c_newfirst c) <> [] /\ all_of (c_newlast c) <> [] /\
      forall t, all_of t <> [] -> c_newfirst c <= t <= c_newlast c)).
  Proof.
    unfold count_new.
    destruct (count_procs_spec np fb (mktcount (fun _ => 0) (fun _ => 0) topidx_max 0)) as (c & E & H1 & H2 & H3 & H4);
      [lia|unfold trips; lia|]. rewrite E. cbn [c_cnt c_bef c_newfirst c_newlast] in *.
    assert (RNG : forall q, fb <= q < fb + Z.of_nat np <-> fb <= q <= fe) by (unfold trips; lia).
    assert (AN : forall t, all_of t <> [] -> c_newfirst c <= t <= c_newlast c).
    { intros t Nt. apply all_of_nonempty in Nt. destruct Nt as (p & Hp & Np).
      split.
      - pose proof (proj1 (H3 (c_newfirst c)) (Z.le_refl _)) as [_ B]. apply (B p t); [apply RNG; exact Hp|exact Np].
      - pose proof (proj1 (H4 (c_newlast c)) (Z.le_refl _)) as [_ B]. apply (B p t); [apply RNG; exact Hp|exact Np]. }
    assert (DEC : (forall t, all_of t = []) \/ exists t, all_of t <> []).
    { (* finitely many trees *)
      destruct (Forall_dec (fun t => all_of t = []) (fun t => nil_dec (all_of t))
        (map Z.of_nat (seq 0 (Z.to_nat T)))) as [F|F].
      - left. intros t. destruct (all_of t) eqn:Q; [reflexivity|]. rewrite <- Q.
        assert (N : all_of t <> []) by congruence. pose proof N as N2. apply all_of_nonempty in N2.
        destruct N2 as (p & _ & Np). apply HT in Np. rewrite Forall_forall in F. apply F. apply in_map_iff.
        exists (Z.to_nat t). split; [lia|]. apply in_seq. lia.
      - right. rewrite <- Exists_Forall_neg in F.
        + apply Exists_exists in F. destruct F as (t & _ & Nt). exists t. exact Nt.
        + intros t. destruct (all_of t); [left; reflexivity|right; discriminate]. }
    destruct DEC as [Z|[t0 N0]].
    - assert (NF : c_newfirst c >? c_newlast c = true).
      { assert (topidx_max <= c_newfirst c).
        { apply H3. split; [lia|]. intros q t Hq Nq. exfalso. apply (proj2 (all_of_nonempty t)); [exists q; split; [apply RNG; exact Hq|exact Nq]|apply Z]. }
        assert (c_newlast c <= 0).
        { apply H4. split; [lia|]. intros q t Hq Nq. exfalso. apply (proj2 (all_of_nonempty t)); [exists q; split; [apply RNG; exact Hq|exact Nq]|apply Z]. }
        unfold topidx_max in *. lia. }
      rewrite NF. eexists. split; [reflexivity|]. cbn [c_cnt c_bef c_newfirst c_newlast].
      split; [intros t; rewrite H1; reflexivity|]. split; [intros t; rewrite H2; reflexivity|]. left. auto.
    - pose proof (AN t0 N0) as A0. replace (c_newfirst c >? c_newlast c) with false by lia.
      exists c. split; [reflexivity|]. split; [intros t; rewrite H1; reflexivity|]. split; [intros t; rewrite H2; reflexivity|].
      right.
      assert (B0 : 0 <= c_newfirst c).
      { apply H3. unfold topidx_max. split; [lia|]. intros q t _ Nq. apply HT in Nq. lia. }
      assert (B1 : c_newlast c < T).
      { assert (c_newlast c <= T - 1); [|lia]. apply H4.
        pose proof N0 as N1. apply all_of_nonempty in N1. destruct N1 as (p & _ & Np). apply HT in Np.
        split; [lia|]. intros q t _ Nq. apply HT in Nq. lia. }
      split; [lia|]. split; [exact B1|]. split; [|split; [|exact AN]].
      + intros Q. assert (c_newfirst c + 1 <= c_newfirst c); [|lia]. apply H3. unfold topidx_max in *. split; [lia|].
        intros q t Hq Nq. assert (N : all_of t <> []) by (apply all_of_nonempty; exists q; split; [apply RNG; exact Hq|exact Nq]).
        pose proof (AN t N). destruct (Z.eq_dec t (c_newfirst c)) as [->|]; [congruence|lia].
      + intros Q. assert (c_newlast c <= c_newlast c - 1); [|lia]. apply H4.
        assert (NZ : c_newlast c <> 0 \/ c_newlast c = 0) by lia. split.
        { destruct NZ as [|Z0]; [lia|]. exfalso. assert (t0 = 0) by lia. subst t0. rewrite Z0 in Q. congruence. }
        intros q t Hq Nq. assert (N : all_of t <> []) by (apply all_of_nonempty; exists q; split; [apply RNG; exact Hq|exact Nq]).
        pose proof (AN t N). destruct (Z.eq_dec t (c_newlast c)) as [->|]; [congruence|lia].
  Qed.

  (** *** keeping the own part *)
  Hypothesis Hok : rk_ok T r.
  Variable base : Z.
  Hypothesis Hbase : lower olds rank = Some base.
  Variable v : Z.
  Hypothesis Hv : (if (p_to_begin A pl <=? rank) && (p_to_end A pl >=? rank) then p_beg A pl rank else Some 0) = Some v.
  Hypothesis Hown :
    (p_send A pl rank = 0 /\ forall t, PC rank t = []) \/
    (exists a b : nat, (a < b <= length (loc T r))%nat /\ v - base = Z.of_nat a /\
       v + p_send A pl rank - 1 - base = Z.of_nat b - 1 /\ fb <= rank <= fe /\ forall t, PC rank t = pt r a b t).
  Variable c : tcount.
  Hypothesis Hcnt : forall t, c_cnt c t = zlen (all_of t).
  Hypothesis Hbef : forall t, c_bef c t = zlen (cat (PB t) fb np).

  (** the pieces before the own one, the own one, and the others *)
  Lemma all_split t : fb <= rank <= fe ->
    all_of t = cat (fun p => PC p t) fb (Z.to_nat (rank - fb)) ++ PC rank t ++
               cat (fun p => PC p t) (rank + 1) (Z.to_nat (fe - rank)).
  Proof.
    intros H. unfold all_of, trips. replace (Z.to_nat (fe - fb + 1)) with (Z.to_nat (rank - fb) + S (Z.to_nat (fe - rank)))%nat by lia.
    rewrite cat_app. cbn [cat]. replace (fb + Z.of_nat (Z.to_nat (rank - fb))) with rank by lia. reflexivity.
  Qed.

  Lemma before_split t : fb <= rank <= fe ->
    c_bef c t = zlen (cat (fun p => PC p t) fb (Z.to_nat (rank - fb))).
  Proof.
    intros H. rewrite Hbef. unfold trips. replace (Z.to_nat (fe - fb + 1)) with (Z.to_nat (rank - fb) + Z.to_nat (fe - rank + 1))%nat by lia.
    rewrite cat_app, zlen_app. rewrite (cat_nil (PB t) _ (fb + _)); [|intros p Hp; unfold PB; replace (p <? rank) with false by lia; reflexivity].
    unfold zlen at 2. cbn. rewrite Z.add_0_r. f_equal. apply cat_ext. intros p Hp. unfold PB. replace (p <? rank) with true by lia. reflexivity.
  Qed.

  Lemma before_bound t : 0 <= c_bef c t /\ c_bef c t + zlen (PC rank t) <= c_cnt c t.
  Proof.
    split; [rewrite Hbef; apply zlen_nonneg|].
    assert (G : forall n p, zlen (cat (PB t) p n) <= zlen (cat (fun p => PC p t) p n)).
    { induction n as [|n IH]; intros p; cbn [cat]; [lia|]. rewrite !zlen_app. specialize (IH (p + 1)).
      unfold PB at 1. destruct (p <? rank); [lia|]. unfold zlen at 1. cbn. pose proof (zlen_nonneg (PC p t)). lia. }
    destruct Hown as [[_ E]|(a & b & _ & _ & _ & Hr & _)].
    - rewrite E, Hbef, Hcnt. unfold all_of. specialize (G np fb). unfold zlen at 2. cbn. lia.
    - rewrite (before_split t Hr), Hcnt, (all_split t Hr), !zlen_app.
      pose proof (zlen_nonneg (cat (fun p => PC p t) (rank + 1) (Z.to_nat (fe - rank)))). lia.
  Qed.

  Definition post (t : Z) (X : list (option A)) : Prop :=
    (zlen X = c_cnt c t \/ X = []) /\ holds X (c_bef c t) (PC rank t).

  Lemma zlen_map_some (l : list A) : zlen (map Some l) = zlen l.
  Proof. unfold zlen. rewrite map_length. reflexivity. Qed.

  Lemma nonlocal_nil t : ~ k_first A r <= t <= k_last A r -> k_trees A r t = [].
  Proof.
    intros H. destruct Hok as [(_ & _ & E)|(_ & _ & E)]; [apply E|].
    destruct (k_trees A r t) eqn:Q; [reflexivity|]. exfalso. apply H. apply E. congruence.
  Qed.

  Lemma own_nonlocal t : ~ k_first A r <= t <= k_last A r -> PC rank t = [].
  Proof.
    intros H. destruct Hown as [[_ E]|(a & b & _ & _ & _ & _ & E)]; [apply E|].
    rewrite E. unfold pt. rewrite nonlocal_nil by exact H. apply sub_nil.
  Qed.

  (** copying s to the place of the own part *)
  Lemma keep_move t (arr : list (option A)) tfb nc :
    arr = map Some (k_trees A r t) -> c_cnt c t > 0 -> 0 <= tfb -> nc = zlen (PC rank t) -> tfb + nc <= zlen arr ->
    sub (Z.to_nat tfb) (Z.to_nat (tfb + nc)) (k_trees A r t) = PC rank t ->
    exists X, match slice (if c_cnt c t >? zlen arr then resize arr (c_cnt c t) else arr) tfb nc with
          | None => None
          | Some s =>
            match blit (if c_cnt c t >? zlen arr then resize arr (c_cnt c t) else arr) (c_bef c t) s with
            | None => None
            | Some arr => Some (if c_cnt c t <? zlen arr then resize arr (c_cnt c t) else arr)
            end
          end = Some X /\ post t X.
  Proof.
    intros EA Hc Htf Enc Hb Es. set (arr' := if c_cnt c t >? zlen arr then resize arr (c_cnt c t) else arr).
    pose proof (before_bound t) as [B1 B2].
    assert (L' : zlen arr' = Z.max (zlen arr) (c_cnt c t)).
    { unfold arr'. destruct (c_cnt c t >? zlen arr) eqn:Q; [rewrite resize_len by lia; lia|lia]. }
    pose proof (zlen_nonneg (PC rank t)) as PN.
    rewrite slice_sub by lia.
    assert (S : sub (Z.to_nat tfb) (Z.to_nat (tfb + nc)) arr' = map Some (PC rank t)).
    { rewrite <- Es, <- sub_map, <- EA. unfold sub. apply list_ext. intros i.
      destruct (Nat.lt_ge_cases i (Z.to_nat (tfb + nc) - Z.to_nat tfb)) as [Li|Gi].
      - rewrite !nth_firstn, !nth_skipn by lia. unfold arr'.
        destruct (c_cnt c t >? zlen arr) eqn:Q; [|reflexivity]. apply resize_nth; unfold zlen in *; lia.
      - rewrite !(proj2 (nth_error_None _ _)); [reflexivity| |]; rewrite firstn_length; lia. }
    rewrite S. destruct (blit_ok arr' (c_bef c t) (map Some (PC rank t))) as [X EX];
      [lia|rewrite zlen_map_some; lia|]. rewrite EX.
    pose proof (nth_blit _ _ _ _ EX) as (_ & LX & NX). rewrite zlen_map_some in NX.
    assert (HX : holds X (c_bef c t) (PC rank t)).
    { intros i x Hi. rewrite NX.
      assert (Li : (i < length (PC rank t))%nat) by (apply nth_error_Some; congruence).
      unfold zlen in *.
      replace ((Z.of_nat (Z.to_nat (c_bef c t) + i) <? c_bef c t) || (c_bef c t + Z.of_nat (length (PC rank t)) <=? Z.of_nat (Z.to_nat (c_bef c t) + i))) with false by lia.
      replace (Z.to_nat (c_bef c t) + i - Z.to_nat (c_bef c t))%nat with i by lia.
      rewrite nth_error_map, Hi. reflexivity. }
    eexists. split; [reflexivity|]. destruct (c_cnt c t <? zlen X) eqn:Q.
    - split; [left; apply resize_len; lia|]. intros i x Hi.
      assert (Li : (i < length (PC rank t))%nat) by (apply nth_error_Some; congruence).
      unfold zlen in *. rewrite resize_nth; [apply (HX i x Hi)|lia|lia].
    - split; [left; unfold zlen in *; lia|exact HX].
  Qed.

  Lemma keep_tree_spec t : exists X,
    keep_tree A r c (tree_lasts A r) (v - base) (v + p_send A pl rank - 1 - base) t (map Some (k_trees A r t)) = Some X /\ post t X.
  Proof.
    unfold keep_tree. destruct ((t >=? k_first A r) && (t <=? k_last A r)) eqn:LC.
    - destruct (c_cnt c t >? 0) eqn:C.
      + destruct Hown as [[S0 E0]|(a & b & Hab & Ea & Eb & Hr & Ep)].
        * (* nothing is kept *)
          rewrite S0.
          destruct (((if t =? k_first A r then 0 else tree_lasts A r (t - 1) + 1) <=? v + 0 - 1 - base) && (tree_lasts A r t >=? v - base)) eqn:Q.
          -- assert (HF : 0 <= k_first A r).
             { destruct Hok as [(F1 & F2 & _)|(F1 & _)]; lia. }
             assert (EF : (if t =? k_first A r then 0 else tree_lasts A r (t - 1) + 1) = Z.of_nat (offt (k_trees A r) 0 t)).
             { destruct (t =? k_first A r) eqn:E.
               - replace t with (k_first A r) by lia. rewrite (off_first T r Hok) by lia. reflexivity.
               - rewrite (tree_lasts_spec T r Hok) by lia. replace (t - 1 + 1) with t by lia. lia. }
             assert (EE : tree_lasts A r t = Z.of_nat (offt (k_trees A r) 0 (t + 1)) - 1) by (apply (tree_lasts_spec T r Hok); lia).
             rewrite offt_step in EE by lia. rewrite EF, EE in *.
             apply (keep_move t _ _ _ eq_refl); [lia|lia| | |].
             ++ rewrite E0. unfold zlen. cbn. lia.
             ++ rewrite zlen_map_some. unfold zlen. lia.
             ++ rewrite E0. apply sub_empty. lia.
          -- apply (keep_move t _ _ _ eq_refl); [lia|lia| | |].
             ++ rewrite E0. reflexivity.
             ++ rewrite zlen_map_some. pose proof (zlen_nonneg (k_trees A r t)). lia.
             ++ rewrite E0. apply sub_empty. lia.
        * rewrite Ea, Eb.
          pose proof (piece_arith T r Hok a b Hab t (Z.of_nat a) ltac:(lia) (or_intror eq_refl)) as PA. cbv zeta in PA.
          destruct PA as (_ & _ & [(Q & P0 & P1 & P2 & P3 & P4 & _)|(Q & P1 & _)]); rewrite Q.
          -- apply (keep_move t _ _ _ eq_refl); [lia|lia| | |].
             ++ rewrite Ep. exact P2.
             ++ rewrite zlen_map_some. exact P3.
             ++ rewrite Ep. rewrite slice_sub in P4; [injection P4 as ->; reflexivity|lia|lia|exact P3].
          -- apply (keep_move t _ _ _ eq_refl); [lia|lia| | |].
             ++ rewrite Ep, P1. reflexivity.
             ++ rewrite zlen_map_some. pose proof (zlen_nonneg (k_trees A r t)). lia.
             ++ rewrite Ep, P1. apply sub_empty. lia.
      + exists []. split; [reflexivity|]. split; [right; reflexivity|].
        pose proof (before_bound t) as [B1 B2]. pose proof (zlen_nonneg (PC rank t)).
        rewrite (zlen_nil (PC rank t)) by lia. apply holds_nil.
    - assert (N : ~ k_first A r <= t <= k_last A r) by lia.
      rewrite (nonlocal_nil t N). cbn [map].
      exists []. split; [destruct (c_cnt c t >? 0); reflexivity|]. split; [right; reflexivity|].
      rewrite (own_nonlocal t N). apply holds_nil.
  Qed.

  Lemma keep_loop_spec : forall n t tr,
    (forall u, t <= u < t + Z.of_nat n -> tr u = map Some (k_trees A r u)) ->
    exists tr', keep_loop A r c (tree_lasts A r) (v - base) (v + p_send A pl rank - 1 - base) n t tr = Some tr' /\
      (forall u, t <= u < t + Z.of_nat n -> post u (tr' u)) /\ (forall u, ~ t <= u < t + Z.of_nat n -> tr' u = tr u).
  Proof.
    induction n as [|n IH]; intros t tr H; cbn [keep_loop].
    - exists tr. split; [reflexivity|]. split; intros; [lia|reflexivity].
    - rewrite (H t) by lia. destruct (keep_tree_spec t) as (X & EX & PX). rewrite EX.
      destruct (IH (t + 1) (upd tr t X)) as (tr' & E & H1 & H2).
      { intros u Hu. unfold upd. replace (u =? t) with false by lia. apply H. lia. }
      exists tr'. split; [exact E|]. split.
      + intros u Hu. destruct (Z.eq_dec u t) as [->|N]; [|apply H1; lia].
        rewrite H2 by lia. unfold upd. rewrite Z.eqb_refl. exact PX.
      + intros u Hu. rewrite H2 by lia. unfold upd. replace (u =? t) with false by lia. reflexivity.
  Qed.

  Lemma keep_local_spec :
    (c_newfirst c = -1 /\ c_newlast c = -2 /\ (forall t, all_of t = [])) \/
     (0 <= c_newfirst c <= c_newlast c /\ forall t, all_of t <> [] -> c_newfirst c <= t <= c_newlast c) ->
    exists tr, keep_local A rank r pl c base = Some tr /\ forall t, post t (tr t).
  Proof.
    intros HN. unfold keep_local. rewrite Hv.
    set (ft := if (k_first A r >=? 0) && (c_newfirst c >=? 0) then Z.min (k_first A r) (c_newfirst c) else Z.max (k_first A r) (c_newfirst c)).
    set (lt := Z.max (k_last A r) (c_newlast c)).
    destruct (keep_loop_spec (trips ft lt) ft (fun t => map Some (k_trees A r t)) ltac:(reflexivity)) as (tr & E & H1 & H2).
    exists tr. split; [exact E|]. intros t.
    destruct (Z.le_gt_cases ft t) as [L1|G1]; [destruct (Z.le_gt_cases t lt) as [L2|G2]|].
    - apply H1. unfold trips. lia.
    - assert (NL : ~ k_first A r <= t <= k_last A r) by lia.
      rewrite H2 by (unfold trips; lia). rewrite (nonlocal_nil t NL).
      split; [right; reflexivity|]. rewrite (own_nonlocal t NL). apply holds_nil.
    - assert (NL : ~ k_first A r <= t <= k_last A r).
      { unfold ft in G1. destruct Hok as [(F1 & F2 & _)|(F1 & F2 & _)], HN as [(N1 & N2 & _)|(N1 & _)];
          destruct ((k_first A r >=? 0) && (c_newfirst c >=? 0)) eqn:Q; lia. }
      rewrite H2 by (unfold trips; lia). rewrite (nonlocal_nil t NL).
      split; [right; reflexivity|]. rewrite (own_nonlocal t NL). apply holds_nil.
  Qed.

  (** *** copying what arrived *)
  Definition sofar (p t : Z) : list A := cat (fun p => PC p t) fb (Z.to_nat (p - fb)).
  Definition inv (p t : Z) (X : list (option A)) (cur : Z) : Prop :=
    cur = zlen (sofar p t) /\ (zlen X = c_cnt c t \/ X = []) /\ holds X 0 (sofar p t) /\ holds X (c_bef c t) (PC rank t).

  Lemma sofar_next p t : fb <= p -> sofar (p + 1) t = sofar p t ++ PC p t.
  Proof.
    intros H. unfold sofar. replace (Z.to_nat (p + 1 - fb)) with (S (Z.to_nat (p - fb))) by lia.
    rewrite cat_snoc. replace (fb + Z.of_nat (Z.to_nat (p - fb))) with p by lia. reflexivity.
  Qed.

  Lemma sofar_bound p t : fb <= p <= fe + 1 -> zlen (sofar p t) <= c_cnt c t.
  Proof.
    intros H. rewrite Hcnt. unfold sofar, all_of, trips.
    replace (Z.to_nat (fe - fb + 1)) with (Z.to_nat (p - fb) + Z.to_nat (fe + 1 - p))%nat by lia.
    rewrite cat_app, zlen_app. pose proof (zlen_nonneg (cat (fun p => PC p t) (fb + Z.of_nat (Z.to_nat (p - fb))) (Z.to_nat (fe + 1 - p)))). lia.
  Qed.

  Lemma sofar_mono p q t : fb <= p <= q -> zlen (sofar p t) <= zlen (sofar q t).
  Proof.
    intros H. unfold sofar. replace (Z.to_nat (q - fb)) with (Z.to_nat (p - fb) + Z.to_nat (q - p))%nat by lia.
    rewrite cat_app, zlen_app. pose proof (zlen_nonneg (cat (fun p => PC p t) (fb + Z.of_nat (Z.to_nat (p - fb))) (Z.to_nat (q - p)))). lia.
  Qed.

  Lemma own_in_range t : PC rank t <> [] -> fb <= rank <= fe.
  Proof. intros H. destruct Hown as [[_ E]|(a & b & _ & _ & _ & Hr & _)]; [congruence|exact Hr]. Qed.

  (** own process: the counter moves on *)
  Lemma inv_own t X cur : fb <= rank <= fe -> inv rank t X cur -> inv (rank + 1) t X (cur + zlen (PC rank t)).
  Proof.
    intros Hr (I1 & I2 & I3 & I4). unfold inv. rewrite sofar_next by lia. rewrite zlen_app.
    split; [lia|]. split; [exact I2|]. split; [|exact I4].
    intros i x Hi. destruct (Nat.lt_ge_cases i (length (sofar rank t))) as [L|G].
    - rewrite nth_error_app1 in Hi by lia. apply (I3 i x Hi).
    - rewrite nth_error_app2 in Hi by lia. specialize (I4 _ x Hi). rewrite before_split in I4 by exact Hr.
      unfold sofar, zlen in *. rewrite Nat2Z.id in I4. cbn [Z.to_nat Nat.add].
      replace (length (cat (fun p => PC p t) fb (Z.to_nat (rank - fb))) + (i - length (cat (fun p => PC p t) fb (Z.to_nat (rank - fb)))))%nat with i in I4 by lia.
      exact I4.
  Qed.

  Lemma inv_zero p t X cur : fb <= p -> PC p t = [] -> inv p t X cur -> inv (p + 1) t X cur.
  Proof. intros Hp E I. unfold inv. rewrite sofar_next, E, app_nil_r by lia. exact I. Qed.

  Lemma inv_blit p t X cur : fb <= p <= fe -> p <> rank -> inv p t X cur ->
    exists X', blit (resize X (c_cnt c t)) cur (map Some (PC p t)) = Some X' /\ inv (p + 1) t X' (cur + zlen (PC p t)).
  Proof.
    intros Hp NR (I1 & I2 & I3 & I4).
    assert (CN : 0 <= c_cnt c t) by (rewrite Hcnt; apply zlen_nonneg).
    pose proof (sofar_bound (p + 1) t ltac:(lia)) as SB. rewrite sofar_next, zlen_app in SB by lia.
    pose proof (zlen_nonneg (sofar p t)) as SN. pose proof (zlen_nonneg (PC p t)) as PN.
    pose proof (before_bound t) as [B1 B2].
    set (Y := resize X (c_cnt c t)).
    assert (LY : zlen Y = c_cnt c t) by (apply resize_len; exact CN).
    assert (HY : forall o l, 0 <= o -> holds X o l -> holds Y o l).
    { intros o l Ho HX. destruct I2 as [E|E].
      - unfold Y. rewrite resize_same by exact E. exact HX.
      - subst X. apply holds_empty in HX. subst l. apply holds_nil. }
    pose proof (HY 0 _ (Z.le_refl 0) I3) as J3. pose proof (HY _ _ B1 I4) as J4.
    destruct (blit_ok Y cur (map Some (PC p t))) as [X' EX]; [lia|rewrite zlen_map_some; lia|].
    exists X'. split; [exact EX|]. pose proof (nth_blit _ _ _ _ EX) as (_ & LX & NX). rewrite zlen_map_some in NX.
    unfold inv. rewrite sofar_next, zlen_app by lia. split; [lia|]. split; [left; unfold zlen in *; lia|]. split.
    - intros i x Hi. rewrite NX. cbn [Z.to_nat Nat.add]. destruct (Nat.lt_ge_cases i (length (sofar p t))) as [L|G].
      + replace (Z.of_nat i <? cur) with true by (unfold zlen in *; lia). cbn [orb].
        rewrite nth_error_app1 in Hi by lia. apply (J3 i x Hi).
      + rewrite nth_error_app2 in Hi by lia.
        assert (Li : (i - length (sofar p t) < length (PC p t))%nat) by (apply nth_error_Some; congruence).
        replace ((Z.of_nat i <? cur) || (cur + zlen (PC p t) <=? Z.of_nat i)) with false by (unfold zlen in *; lia).
        rewrite nth_error_map. replace (i - Z.to_nat cur)%nat with (i - length (sofar p t))%nat by (unfold zlen in *; lia).
        rewrite Hi. reflexivity.
    - intros i x Hi. rewrite NX.
      assert (Li : (i < length (PC rank t))%nat) by (apply nth_error_Some; congruence).
      assert (Hr : fb <= rank <= fe) by (apply (own_in_range t); intros Q; rewrite Q in Li; cbn in Li; lia).
      assert (EB : c_bef c t = zlen (sofar rank t)) by (apply before_split; exact Hr).
      assert (D : Z.of_nat (Z.to_nat (c_bef c t) + i) < cur \/ cur + zlen (PC p t) <= Z.of_nat (Z.to_nat (c_bef c t) + i)).
      { destruct (Z.lt_ge_cases p rank) as [Lp|Gp].
        - right. pose proof (sofar_mono (p + 1) rank t ltac:(lia)) as M. rewrite sofar_next, zlen_app in M by lia. lia.
        - left. pose proof (sofar_mono (rank + 1) p t ltac:(lia)) as M. rewrite sofar_next, zlen_app in M by lia.
          unfold zlen in *. lia. }
      replace ((Z.of_nat (Z.to_nat (c_bef c t) + i) <? cur) || (cur + zlen (PC p t) <=? Z.of_nat (Z.to_nat (c_bef c t) + i))) with true by lia.
      apply (J4 i x Hi).
  Qed.

  Lemma copy_trees_spec p ft cnt : fb <= p <= fe ->
    forall n it quads tr bef, 0 <= it ->
    (forall j, it <= j < it + Z.of_nat n -> cnt j = zlen (PC p (ft + j))) ->
    (p <> rank -> quads = cat (PC p) (ft + it) n) ->
    (forall t, ft + it <= t < ft + it + Z.of_nat n -> inv p t (tr t) (bef t)) ->
    exists tr' bef', copy_trees A T (p =? rank) ft cnt c n it quads tr bef = Some (tr', bef') /\
      (forall t, ft + it <= t < ft + it + Z.of_nat n -> inv (p + 1) t (tr' t) (bef' t)) /\
      (forall t, ~ ft + it <= t < ft + it + Z.of_nat n -> tr' t = tr t /\ bef' t = bef t).
  Proof.
    intros Hp. induction n as [|n IH]; intros it quads tr bef Hit Hc Hq Hi; cbn [copy_trees].
    - exists tr, bef. split; [reflexivity|]. split; intros; [lia|split; reflexivity].
    - pose proof (Hc it ltac:(lia)) as E0. pose proof (Hi (ft + it) ltac:(lia)) as I0.
      destruct (cnt it >? 0) eqn:C.
      + assert (NE : PC p (ft + it) <> []) by (intros Q; rewrite Q in E0; unfold zlen in E0; cbn in E0; lia).
        pose proof (HT p _ NE) as TT. replace ((0 <=? ft + it) && (ft + it <? T)) with true by lia.
        destruct (p =? rank) eqn:PR.
        * assert (p = rank) by lia. subst p.
          match goal with |- exists _ _, copy_trees _ _ _ _ _ _ _ _ ?q ?tt ?bb = _ /\ _ =>
            destruct (IH (it + 1) q tt bb) as (tr' & bef' & E & H1 & H2) end; [lia|intros; apply Hc; lia|lia| |].
          { intros t Ht. unfold upd. replace (t =? ft + it) with false by lia. apply Hi. lia. }
          exists tr', bef'. split; [exact E|]. split.
          -- intros t Ht. destruct (Z.eq_dec t (ft + it)) as [->|N]; [|apply H1; lia].
             destruct (H2 (ft + it) ltac:(lia)) as [-> ->]. unfold upd. rewrite Z.eqb_refl, E0. apply inv_own; [exact Hp|exact I0].
          -- intros t Ht. destruct (H2 t ltac:(lia)) as [-> ->]. unfold upd. replace (t =? ft + it) with false by lia. split; reflexivity.
        * specialize (Hq ltac:(lia)). cbn [cat] in Hq.
          assert (SL : slice quads 0 (cnt it) = Some (PC p (ft + it))).
          { rewrite slice_sub; [|lia|lia|rewrite Hq, zlen_app, E0; pose proof (zlen_nonneg (cat (PC p) (ft + it + 1) n)); lia].
            f_equal. rewrite Hq, E0. cbn [Z.to_nat Z.add]. rewrite sub_app, sub_all by (unfold zlen; lia).
            rewrite (sub_empty (0 - _)); [apply app_nil_r|unfold zlen; lia]. }
          rewrite SL. destruct (inv_blit p (ft + it) (tr (ft + it)) (bef (ft + it)) Hp ltac:(lia) I0) as (X' & EX & IX).
          rewrite EX.
          match goal with |- exists _ _, copy_trees _ _ _ _ _ _ _ _ ?q ?tt ?bb = _ /\ _ =>
            destruct (IH (it + 1) q tt bb) as (tr' & bef' & E & H1 & H2) end; [lia|intros; apply Hc; lia| | |].
          { intros _. rewrite Hq, E0. unfold zlen. rewrite Nat2Z.id, skipn_app, skipn_all, Nat.sub_diag. cbn [app skipn].
            f_equal. lia. }
          { intros t Ht. unfold upd. replace (t =? ft + it) with false by lia. apply Hi. lia. }
          exists tr', bef'. split; [exact E|]. split.
          -- intros t Ht. destruct (Z.eq_dec t (ft + it)) as [->|N]; [|apply H1; lia].
             destruct (H2 (ft + it) ltac:(lia)) as [-> ->]. unfold upd. rewrite Z.eqb_refl, E0. exact IX.
          -- intros t Ht. destruct (H2 t ltac:(lia)) as [-> ->]. unfold upd. replace (t =? ft + it) with false by lia. split; reflexivity.
      + assert (NE : PC p (ft + it) = []) by (apply zlen_nil; pose proof (zlen_nonneg (PC p (ft + it))); lia).
        destruct (IH (it + 1) quads tr bef) as (tr' & bef' & E & H1 & H2); [lia|intros; apply Hc; lia| |intros; apply Hi; lia|].
        { intros N. rewrite (Hq N). cbn [cat]. rewrite NE. cbn [app]. f_equal. lia. }
        exists tr', bef'. split; [exact E|]. split.
        * intros t Ht. destruct (Z.eq_dec t (ft + it)) as [->|N]; [|apply H1; lia].
          destruct (H2 (ft + it) ltac:(lia)) as [-> ->]. apply inv_zero; [lia|exact NE|exact I0].
        * intros t Ht. apply H2. lia.
  Qed.

  Lemma copy_procs_spec : forall n p tr bef, fb <= p -> p + Z.of_nat n = fe + 1 ->
    (forall t, inv p t (tr t) (bef t)) ->
    exists tr' bef', copy_procs A T gft rank pl mail c n p tr bef = Some tr' /\ forall t, inv (fe + 1) t (tr' t) (bef' t).
  Proof.
    induction n as [|n IH]; intros p tr bef Hp Hn Hi; cbn [copy_procs].
    - exists tr, bef. split; [reflexivity|]. replace (fe + 1) with p by lia. exact Hi.
    - destruct (p_recv A pl p >? 0) eqn:C.
      + destruct (Hfrom p ltac:(lia) ltac:(lia)) as (ft & nrt & cnt & quads & E & F1 & F2 & F3). rewrite E.
        destruct (copy_trees_spec p ft cnt ltac:(lia) (Z.to_nat nrt) 0 quads tr bef ltac:(lia)) as (tr1 & bef1 & E1 & H1 & H2).
        * intros j Hj. apply F1. lia.
        * rewrite Z.add_0_r. exact F3.
        * intros t _. apply Hi.
        * rewrite E1. rewrite Z.add_0_r in *. apply IH; [lia|lia|]. intros t.
          destruct (Z.lt_ge_cases t ft) as [L|G]; [|destruct (Z.lt_ge_cases t (ft + Z.of_nat (Z.to_nat nrt))) as [L2|G2]].
          -- destruct (H2 t ltac:(lia)) as [-> ->]. apply inv_zero; [lia|apply F2; lia|apply Hi].
          -- apply H1. lia.
          -- destruct (H2 t ltac:(lia)) as [-> ->]. apply inv_zero; [lia|apply F2; lia|apply Hi].
      + apply IH; [lia|lia|]. intros t. apply inv_zero; [lia|apply Hzero; lia|apply Hi].
  Qed.

  Lemma read_trees_spec tr : (forall t, exists cur, inv (fe + 1) t (tr t) cur) -> forall n t,
    read_trees A n t tr = Some (map all_of (map (fun i => t + Z.of_nat i) (seq 0 n))).
  Proof.
    intros Hi. induction n as [|n IH]; intros t; cbn [read_trees seq map]; [reflexivity|].
    destruct (Hi t) as (cur & _ & I2 & I3 & _).
    assert (ES : sofar (fe + 1) t = all_of t).
    { unfold sofar, all_of, trips. do 2 f_equal. lia. }
    rewrite ES in I3.
    assert (EX : tr t = map Some (all_of t)).
    { destruct I2 as [E|E].
      - apply holds_all; [exact I3|]. rewrite E. apply Hcnt.
      - rewrite E in *. apply holds_empty in I3. rewrite I3. reflexivity. }
    rewrite EX, all_some_map, IH. rewrite Z.add_0_r. f_equal. f_equal. rewrite <- seq_shift, !map_map.
    apply map_ext. intros i. f_equal. lia.
  Qed.
End Recv.
