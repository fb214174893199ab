(** * The numbers of trees, corners and edges of a brick *)

From Coq Require Import ZArith List Bool Lia ZifyBool FinFun.
From Verif Require Import Quad Spec Neighbor Transform Partition Conn ConnLemmas Permute PermuteArray Brick BrickBits.
Import ListNotations.
Open Scope Z_scope.

Lemma nodup_zget {A} (l : list A) i j x : NoDup l -> zget l i = Some x -> zget l j = Some x -> i = j.
Proof.
  intros N E F. pose proof (zget_range _ _ _ E) as Ri. pose proof (zget_range _ _ _ F) as Rj.
  rewrite zg in E, F by lia. unfold zlen in *. assert (Z.to_nat i = Z.to_nat j); [|lia].
  apply (proj1 (NoDup_nth_error l) N); [lia|congruence].
Qed.
Lemma same_length {A} (l l' : list A) : NoDup l -> NoDup l' -> (forall x, In x l <-> In x l') -> zlen l = zlen l'.
Proof.
  intros N N' H. unfold zlen. assert (A1 : incl l l') by (intros x; apply H). assert (A2 : incl l' l) by (intros x; apply H).
  pose proof (NoDup_incl_length N A1). pose proof (NoDup_incl_length N' A2). lia.
Qed.
Lemma upto_get n i : 0 <= i < n -> zget (upto n) i = Some i.
Proof.
  intros H. rewrite zg by lia. unfold upto. rewrite nth_error_map. rewrite (nth_error_nth' _ O) by (rewrite seq_length; lia).
  rewrite seq_nth by lia. cbn. f_equal. lia.
Qed.
Lemma map_get {A B} (f : A -> B) l i : zget (map f l) i = option_map f (zget l i).
Proof. unfold zget. destruct (i <? 0); [reflexivity|]. apply nth_error_map. Qed.

(** ** counting the flagged elements of a list *)
Fixpoint numb {A} (flag : A -> bool) (c : Z) (l : list A) : list Z :=
  match l with [] => [] | x :: r => if flag x then c :: numb flag (c + 1) r else -1 :: numb flag c r end.

Lemma numb_app {A} (flag : A -> bool) l l' : forall c, numb flag c (l ++ l') = numb flag c l ++ numb flag (c + zlen (filter flag l)) l'.
Proof.
  induction l as [|x l IH]; intros c; cbn [app numb filter]; [unfold zlen; cbn [length]; rewrite Z.add_0_r; reflexivity|].
  destruct (flag x); rewrite IH; cbn [app]; [|reflexivity]. f_equal. f_equal. f_equal. unfold zlen. cbn [length]. lia.
Qed.
Lemma numb_len {A} (flag : A -> bool) l : forall c, zlen (numb flag c l) = zlen l.
Proof.
  induction l as [|x l IH]; intros c; cbn [numb]; [reflexivity|]. specialize (IH c) as I1. specialize (IH (c + 1)) as I2.
  unfold zlen in *. destruct (flag x); cbn [length]; lia.
Qed.
Lemma zget_cons {A} (a : A) l i : zget (a :: l) i = if i =? 0 then Some a else zget l (i - 1).
Proof.
  unfold zget. destruct (i =? 0) eqn:E; [replace (i <? 0) with false by lia; replace (Z.to_nat i) with O by lia; reflexivity|].
  destruct (i <? 0) eqn:F; [replace (i - 1 <? 0) with true by lia; reflexivity|]. replace (i - 1 <? 0) with false by lia.
  replace (Z.to_nat i) with (S (Z.to_nat (i - 1))) by lia. reflexivity.
Qed.
Lemma numb_get {A} (flag : A -> bool) l : forall c i x, zget l i = Some x ->
  exists v, zget (numb flag c l) i = Some v /\ (flag x = false -> v = -1) /\ (flag x = true -> zget (filter flag l) (v - c) = Some x).
Proof.
  induction l as [|y l IH]; intros c i x; [unfold zget; destruct (i <? 0), (Z.to_nat i); discriminate|].
  rewrite zget_cons. cbn [numb filter]. destruct (i =? 0) eqn:E.
  - intros H. injection H as ->. destruct (flag x) eqn:F; rewrite zget_cons, E; eexists; (split; [reflexivity|]); split; try discriminate; auto.
    intros _. replace (c - c) with 0 by lia. reflexivity.
  - intros H. destruct (flag y) eqn:F; rewrite zget_cons, E.
    + destruct (IH (c + 1) _ _ H) as (v & V & V0 & V1). exists v. split; [auto|]. split; [auto|]. intros T. specialize (V1 T).
      rewrite zget_cons. pose proof (zget_range _ _ _ V1). replace (v - c =? 0) with false by lia. replace (v - c - 1) with (v - (c + 1)) by lia. auto.
    + destruct (IH c _ _ H) as (v & V & V0 & V1). exists v. auto.
Qed.

(** ** boxes *)
Definition box (a b c : Z) : list xyz := list_prod (list_prod (upto a) (upto b)) (upto c).
Lemma in_boxl a b c x : In x (box a b c) <-> 0 <= cg x 0 < a /\ 0 <= cg x 1 < b /\ 0 <= cg x 2 < c.
Proof. destruct x as ((x & y) & z). unfold xyz, box. rewrite !in_prod_iff, !in_upto. cbn. tauto. Qed.
Lemma nodup_app {A} (l l' : list A) : NoDup l -> NoDup l' -> (forall x, In x l -> In x l' -> False) -> NoDup (l ++ l').
Proof.
  intros N N' D. induction N as [|x l NI N IH]; cbn [app]; [auto|]. constructor.
  - rewrite in_app_iff. intros [I|I]; [auto|]. apply (D x); [left; reflexivity|auto].
  - apply IH. intros y I. apply D. right. auto.
Qed.
Lemma prod_nodup {A B} (l : list A) (l' : list B) : NoDup l -> NoDup l' -> NoDup (list_prod l l').
Proof.
  intros N N'. induction N as [|x l NI N IH]; cbn; [constructor|]. apply nodup_app; auto.
  - apply Injective_map_NoDup; [intros a b E; congruence|auto].
  - intros (a & b) I1 I2. apply in_map_iff in I1 as (b' & E & _). apply in_prod_iff in I2 as (I2 & _). congruence.
Qed.

Lemma box_nodup a b c : NoDup (box a b c).
Proof. apply prod_nodup; [apply prod_nodup|]; apply upto_nodup. Qed.
Lemma box_len a b c : 0 <= a -> 0 <= b -> 0 <= c -> zlen (box a b c) = a * b * c.
Proof.
  intros Ha Hb Hc. pose proof (upto_len a Ha). pose proof (upto_len b Hb). pose proof (upto_len c Hc).
  unfold xyz, box, zlen in *. rewrite !prod_length. lia.
Qed.

Section Number.
  Variables (d : dim) (m n p : Z) (pa pb pc : bool).
  Hypothesis Hm : 0 < m.
  Hypothesis Hn : 0 < n.
  Hypothesis Hp : 0 < p.
  Hypothesis H2 : d = D2 -> p = 1 /\ pc = true.

  Local Notation size := (size m n p).
  Local Notation per := (per pa pb pc).
  Local Notation lg := (lg m n p).
  Local Notation rk := (rk d m n p).
  Local Notation inb := (in_box m n p).
  Local Notation cflag := (cflag m n p pa pb pc).
  Local Notation eflag := (eflag m n p pa pb pc).
  Local Notation csize := (csize m n p pa pb pc).
  Local Notation lin := (x2l d lg rk).
  Local Notation xs := (filter inb (map (l2x d lg rk) (upto (n_iter m n p)))).
  Local Notation N := (number d m n p pa pb pc).

  (** a cell of the lattice *)
  Definition cell (x : xyz) : Prop := forall k, 0 <= k < 3 -> 0 <= cg x k < size k.

  Lemma so : sorted d lg rk.
  Proof. apply ranks_sorted. intros E. apply H2. auto. Qed.
  Lemma size_pos k : 0 <= k < 3 -> 0 < size k.
  Proof. intros H. kcases k H; cbn; auto. Qed.
  Lemma log_size x : 0 < x -> x <= 2 ^ (log2_32 (x - 1) + 1).
  Proof.
    intros H. unfold log2_32. destruct (x - 1 <=? 0) eqn:E; [assert (x = 1) by lia; subst; cbn; lia|].
    pose proof (Z.log2_spec (x - 1) ltac:(lia)). unfold Z.succ in *. lia.
  Qed.
  Lemma size_le k : 0 <= k < 3 -> size k <= 2 ^ cg lg k.
  Proof. intros H. kcases k H; cbn [Brick.size Brick.lg logs cg Z.eqb Pos.eqb]; apply log_size; auto. Qed.
  Lemma n_iter_total : n_iter m n p = 2 ^ total lg.
  Proof.
    unfold n_iter, total. pose proof (lg_nonneg d lg rk so 0). pose proof (lg_nonneg d lg rk so 1). pose proof (lg_nonneg d lg rk so 2).
    rewrite !Z.pow_add_r by lia. reflexivity.
  Qed.
  Lemma cell_boxed x : cell x -> boxed lg x.
  Proof. intros C k Hk. specialize (C k Hk). pose proof (size_le k Hk). lia. Qed.
  Lemma inb_cell x : boxed lg x -> (inb x = true <-> cell x).
  Proof.
    intros B. unfold in_box. pose proof (B 0 ltac:(lia)). pose proof (B 1 ltac:(lia)). pose proof (B 2 ltac:(lia)). split.
    - intros I k Hk. kcases k Hk; cbn [Brick.size cg Z.eqb Pos.eqb] in *; lia.
    - intros C. pose proof (C 0 ltac:(lia)). pose proof (C 1 ltac:(lia)). pose proof (C 2 ltac:(lia)). cbn [Brick.size cg Z.eqb Pos.eqb] in *. lia.
  Qed.

  Lemma lin_range x : cell x -> 0 <= lin x < n_iter m n p.
  Proof. intros C. rewrite n_iter_total. apply x2l_range; [apply so|apply cell_boxed; auto]. Qed.
  Lemma lin_l2x x : cell x -> l2x d lg rk (lin x) = x.
  Proof. intros C. apply l2x_x2l; [apply so|apply cell_boxed; auto]. Qed.
  Lemma pts_get x : cell x -> zget (map (l2x d lg rk) (upto (n_iter m n p))) (lin x) = Some x.
  Proof. intros C. rewrite map_get, upto_get by (apply lin_range; auto). cbn. f_equal. apply lin_l2x. auto. Qed.
  Lemma in_pts x : In x (map (l2x d lg rk) (upto (n_iter m n p))) -> boxed lg x /\ l2x d lg rk (lin x) = x /\ 0 <= lin x < n_iter m n p.
  Proof.
    intros I. apply in_map_iff in I as (t & <- & I). apply in_upto in I.
    rewrite x2l_l2x by (apply so || lia). rewrite n_iter_total in I. split; [apply l2x_boxed; [apply so|auto]|]. split; [auto|]. rewrite n_iter_total. auto.
  Qed.
  Lemma in_xs x : In x xs <-> cell x.
  Proof.
    rewrite filter_In. split.
    - intros (I & B). apply in_pts in I. apply inb_cell; [apply I|auto].
    - intros C. split; [|apply inb_cell; [apply cell_boxed; auto|auto]]. eapply zget_in. apply pts_get. auto.
  Qed.
  Lemma xs_nodup : NoDup xs.
  Proof.
    apply NoDup_filter. rewrite <- (map_id (upto (n_iter m n p))) at 1.
    assert (G : forall l, NoDup l -> (forall t, In t l -> 0 <= t) -> NoDup (map (l2x d lg rk) l)).
    { intros l ND. induction ND as [|t l NI ND IH]; intros P; cbn [map]; constructor.
      - intros I. apply in_map_iff in I as (s & E & I). apply (f_equal lin) in E. rewrite !x2l_l2x in E; try apply so; [congruence| |]; apply P; [left; auto|right; auto].
      - apply IH. intros s I. apply P. right. auto. }
    rewrite map_id. apply G; [apply upto_nodup|]. intros t I. apply in_upto in I. lia.
  Qed.

  (** the three counters *)
  Local Notation cs := (filter cflag xs).
  Local Notation ef := (fun e : xyz * Z => eflag (fst e) (snd e)).
  Definition edges_of (x : xyz) : list (xyz * Z) := [(x, 0); (x, 1); (x, 2)].
  Local Notation es := (filter ef (flat_map edges_of xs)).

  Lemma cflag_eflag x i : cflag x = true -> eflag x i = true.
  Proof. unfold Brick.cflag, Brick.eflag. intros H. destruct (inner m n p pa pb pc x 0), (inner m n p pa pb pc x 1), (inner m n p pa pb pc x 2); try discriminate. destruct (i =? 0), (i =? 1); reflexivity. Qed.

  Lemma number_is : N = mkn (numb inb 0 (map (l2x d lg rk) (upto (n_iter m n p)))) (zlen xs) (numb cflag 0 xs) (zlen cs) (numb ef 0 (flat_map edges_of xs)) (zlen es).
  Proof.
    unfold number. generalize (upto (n_iter m n p)) as l. intros l. induction l as [|t l IH] using rev_ind; [reflexivity|].
    rewrite fold_left_app, IH. cbn [fold_left]. rewrite map_app, filter_app. cbn [map filter]. unfold number_step.
    set (x := l2x d lg rk t). cbn [l2t n_tj tc2 n_tk te2 n_tl].
    set (pts := map (l2x d lg rk) l). set (X := filter inb pts). rewrite numb_app. cbn [numb]. rewrite !Z.add_0_l.
    destruct (inb x) eqn:I; [|rewrite !app_nil_r; reflexivity].
    rewrite filter_app, !numb_app, flat_map_app, filter_app, numb_app. cbn [filter numb flat_map app]. rewrite !Z.add_0_l, app_nil_r.
    change (edges_of x) with [(x, 0); (x, 1); (x, 2)]. cbn [fst snd numb filter].
    destruct (cflag x) eqn:C.
    - rewrite !(cflag_eflag x) by auto. rewrite !zlen_app'. 
      f_equal; unfold zlen; cbn [length]; lia.
    - unfold number_edge. cbn [fst snd]. rewrite !zlen_app', ?app_nil_r.
      destruct (eflag x 0), (eflag x 1), (eflag x 2); cbn [fst snd]; rewrite <- ?app_assoc; cbn [app]; f_equal; unfold zlen; cbn [length]; try lia.
  Qed.

  (** ** The numbers of a tree, of the corner and of the edges at its upper end *)
  Definition val (o : option Z) : Z := match o with Some v => v | None => -1 end.
  Definition tau (x : xyz) : Z := val (zget (l2t N) (lin x)).
  Definition gam (x : xyz) : Z := val (zget (tc2 N) (tau x)).
  Definition eps (x : xyz) (i : Z) : Z := val (zget (te2 N) (tau x * 3 + i)).

  Lemma tau_get x : cell x -> zget (l2t N) (lin x) = Some (tau x) /\ zget xs (tau x) = Some x.
  Proof.
    intros C. unfold tau. rewrite number_is. cbn [l2t]. destruct (numb_get inb _ 0 _ _ (pts_get x C)) as (v & -> & _ & V). cbn [val].
    split; [auto|]. rewrite Z.sub_0_r in V. apply V. apply inb_cell; [apply cell_boxed|]; auto.
  Qed.
  Lemma gam_get x : cell x -> zget (tc2 N) (tau x) = Some (gam x) /\ (cflag x = true -> zget cs (gam x) = Some x).
  Proof.
    intros C. unfold gam. rewrite number_is at 1 2 3. cbn [tc2]. destruct (tau_get x C) as (_ & T).
    destruct (numb_get cflag _ 0 _ _ T) as (v & -> & _ & V). cbn [val]. split; [auto|]. rewrite Z.sub_0_r in V. auto.
  Qed.
  Lemma edges_get l : forall t x i, zget l t = Some x -> 0 <= i < 3 -> zget (flat_map edges_of l) (t * 3 + i) = Some (x, i).
  Proof.
    induction l as [|y l IH]; intros t x i; [unfold zget; destruct (t <? 0), (Z.to_nat t); discriminate|].
    rewrite zget_cons. intros H Hi. cbn [flat_map edges_of app]. rewrite !zget_cons. destruct (t =? 0) eqn:E.
    - injection H as <-. assert (t = 0) by lia. subst t. kcases i Hi; reflexivity.
    - pose proof (zget_range _ _ _ H). replace (t * 3 + i =? 0) with false by lia. replace (t * 3 + i - 1 =? 0) with false by lia.
      replace (t * 3 + i - 1 - 1 =? 0) with false by lia. replace (t * 3 + i - 1 - 1 - 1) with ((t - 1) * 3 + i) by lia. apply IH; auto.
  Qed.
  Lemma eps_get x i : cell x -> 0 <= i < 3 -> zget (te2 N) (tau x * 3 + i) = Some (eps x i) /\ (eflag x i = true -> zget es (eps x i) = Some (x, i)).
  Proof.
    intros C Hi. unfold eps. rewrite number_is at 1 2 3. cbn [te2]. destruct (tau_get x C) as (_ & T).
    pose proof (edges_get _ _ _ _ T Hi) as E. destruct (numb_get ef _ 0 _ _ E) as (v & -> & _ & V). cbn [val]. split; [auto|]. rewrite Z.sub_0_r in V. auto.
  Qed.

  Lemma in_edges l e : In e (flat_map edges_of l) <-> In (fst e) l /\ 0 <= snd e < 3.
  Proof.
    rewrite in_flat_map. split.
    - intros (x & I & [<-|[<-|[<-|[]]]]); cbn; split; auto; lia.
    - intros (I & R). exists (fst e). split; [auto|]. destruct e as (x & i). cbn in *. kcases i R; auto.
  Qed.
  Lemma edges_nodup l : NoDup l -> NoDup (flat_map edges_of l).
  Proof.
    intros ND. induction ND as [|x l NI ND IH]; cbn [flat_map]; [constructor|]. apply nodup_app; [|auto|].
    - unfold edges_of. repeat constructor; cbn; intros H; repeat destruct H as [H|H]; try discriminate H; auto.
    - intros e I I'. apply in_edges in I'. destruct I as [<-|[<-|[<-|[]]]]; apply NI, I'.
  Qed.
  Lemma cs_nodup : NoDup cs.
  Proof. apply NoDup_filter, xs_nodup. Qed.
  Lemma es_nodup : NoDup es.
  Proof. apply NoDup_filter, edges_nodup, xs_nodup. Qed.

  (** tau is a bijection of the cells *)
  Lemma tau_range x : cell x -> 0 <= tau x < zlen xs.
  Proof. intros C. eapply zget_range. apply tau_get. auto. Qed.
  Lemma tau_inj x y : cell x -> cell y -> tau x = tau y -> x = y.
  Proof. intros C C' E. apply tau_get in C as (_ & C). apply tau_get in C' as (_ & C'). congruence. Qed.
  Lemma tau_onto t : 0 <= t < zlen xs -> exists x, cell x /\ tau x = t.
  Proof.
    intros H. destruct (zget_some _ _ H) as (x & E). exists x. assert (C : cell x) by (apply in_xs; eapply zget_in; eauto). split; [auto|].
    eapply (nodup_zget xs); [apply xs_nodup|apply tau_get; auto|auto].
  Qed.
  Lemma gam_range x : cell x -> cflag x = true -> 0 <= gam x < zlen cs.
  Proof. intros C F. eapply zget_range. apply gam_get; auto. Qed.
  Lemma gam_inj x y : cell x -> cell y -> cflag x = true -> cflag y = true -> gam x = gam y -> x = y.
  Proof. intros C C' F F' E. apply gam_get in C as (_ & C). apply gam_get in C' as (_ & C'). specialize (C F). specialize (C' F'). congruence. Qed.
  Lemma gam_onto t : 0 <= t < zlen cs -> exists x, cell x /\ cflag x = true /\ gam x = t.
  Proof.
    intros H. destruct (zget_some _ _ H) as (x & E). exists x. pose proof (zget_in _ _ _ E) as I. apply filter_In in I as (I & F). apply in_xs in I.
    split; [auto|]. split; [auto|]. eapply (nodup_zget cs); [apply cs_nodup|apply gam_get; auto|auto].
  Qed.
  Lemma eps_range x i : cell x -> 0 <= i < 3 -> eflag x i = true -> 0 <= eps x i < zlen es.
  Proof. intros C R F. eapply zget_range. apply eps_get; auto. Qed.
  Lemma eps_inj x y i j : cell x -> cell y -> 0 <= i < 3 -> 0 <= j < 3 -> eflag x i = true -> eflag y j = true -> eps x i = eps y j -> x = y /\ i = j.
  Proof.
    intros C C' R R' F F' E. destruct (eps_get x i C R) as (_ & G). destruct (eps_get y j C' R') as (_ & G'). specialize (G F). specialize (G' F').
    rewrite E in G. assert (P : (x, i) = (y, j)) by congruence. split; congruence.
  Qed.
  Lemma eps_onto t : 0 <= t < zlen es -> exists x i, cell x /\ 0 <= i < 3 /\ eflag x i = true /\ eps x i = t.
  Proof.
    intros H. destruct (zget_some _ _ H) as ((x & i) & E). exists x, i. pose proof (zget_in _ _ _ E) as I. apply filter_In in I as (I & F). apply in_edges in I.
    cbn [fst snd] in I, F. destruct I as (I & R). apply in_xs in I.
    split; [auto|]. split; [auto|]. split; [auto|]. eapply (nodup_zget es); [apply es_nodup|apply eps_get; auto|auto].
  Qed.

  (** ** The numbers of trees, corners and edges *)
  Lemma inner_csize x k : cell x -> 0 <= k < 3 -> (inner m n p pa pb pc x k = true <-> cg x k < csize k).
  Proof. intros C Hk. specialize (C k Hk). unfold inner, Brick.csize. destruct (per k); lia. Qed.
  Lemma csize_range k : 0 <= k < 3 -> 0 <= csize k <= size k.
  Proof. intros Hk. pose proof (size_pos k Hk). unfold Brick.csize. destruct (per k); lia. Qed.
  Lemma cell_alt x : cell x <-> 0 <= cg x 0 < m /\ 0 <= cg x 1 < n /\ 0 <= cg x 2 < p.
  Proof.
    split; [intros C; pose proof (C 0 ltac:(lia)); pose proof (C 1 ltac:(lia)); pose proof (C 2 ltac:(lia)); cbn in *; lia|].
    intros C k Hk. kcases k Hk; cbn [Brick.size cg Z.eqb Pos.eqb]; cbn in *; lia.
  Qed.
  Lemma xs_len : zlen xs = num_trees m n p.
  Proof.
    unfold num_trees. rewrite <- (box_len m n p) by lia. apply same_length; [apply xs_nodup|apply box_nodup|].
    intros x. rewrite in_xs, in_boxl. apply cell_alt.
  Qed.
  Lemma cs_len : zlen cs = num_corners m n p pa pb pc.
  Proof.
    pose proof (csize_range 0). pose proof (csize_range 1). pose proof (csize_range 2).
    unfold num_corners. rewrite <- box_len by lia. apply same_length; [apply cs_nodup|apply box_nodup|].
    intros x. rewrite filter_In, in_xs, in_boxl. unfold Brick.cflag. rewrite !andb_true_iff. split.
    - intros (C & (I0 & I1) & I2). apply inner_csize in I0, I1, I2; auto; try lia. apply cell_alt in C. lia.
    - intros I. assert (C : cell x) by (apply cell_alt; cbn [Brick.size cg Z.eqb Pos.eqb] in *; lia). rewrite !inner_csize by (auto; lia). split; [auto|lia].
  Qed.
  Lemma es_len : zlen es = m * csize 1 * csize 2 + csize 0 * n * csize 2 + csize 0 * csize 1 * p.
  Proof.
    pose proof (csize_range 0 ltac:(lia)) as S0. pose proof (csize_range 1 ltac:(lia)) as S1. pose proof (csize_range 2 ltac:(lia)) as S2. cbn [Brick.size cg Z.eqb Pos.eqb] in S0, S1, S2.
    set (L := map (fun x => (x, 0)) (box m (csize 1) (csize 2)) ++ map (fun x => (x, 1)) (box (csize 0) n (csize 2)) ++ map (fun x => (x, 2)) (box (csize 0) (csize 1) p)).
    rewrite <- !box_len by lia. transitivity (zlen L); [|unfold L; rewrite !zlen_app'; unfold zlen; rewrite !map_length; lia].
    apply same_length; [apply es_nodup| |].
    - unfold L. assert (INJ : forall i : Z, Injective (fun x : xyz => (x, i))) by (intros i a b E; congruence).
      apply nodup_app; [apply Injective_map_NoDup; [apply INJ|apply box_nodup]| |].
      + apply nodup_app; [apply Injective_map_NoDup; [apply INJ|apply box_nodup]|apply Injective_map_NoDup; [apply INJ|apply box_nodup]|].
        intros e I I'. apply in_map_iff in I as (a & <- & _). apply in_map_iff in I' as (b & E & _). congruence.
      + intros e I I'. apply in_map_iff in I as (a & <- & _). apply in_app_iff in I' as [I'|I']; apply in_map_iff in I' as (b & E & _); congruence.
    - intros (x & i). rewrite filter_In, in_edges, in_xs. cbn [fst snd]. unfold L. rewrite !in_app_iff, !in_map_iff. unfold Brick.eflag. split.
      + intros ((C & R) & F). pose proof C as C'. apply cell_alt in C'. kcases i R; cbn [Z.eqb Pos.eqb] in F; rewrite andb_true_iff in F; destruct F as (F1 & F2); apply inner_csize in F1, F2; auto; try lia;
        [left|right; left|right; right]; exists x; (split; [reflexivity|]); apply in_boxl; lia.
      + assert (G : forall a b c, a <= m -> b <= n -> c <= p -> In x (box a b c) -> cell x /\ cg x 0 < a /\ cg x 1 < b /\ cg x 2 < c).
        { intros a b c A B C I. apply in_boxl in I. split; [apply cell_alt; lia|lia]. }
        intros [(y & E & I)|[(y & E & I)|(y & E & I)]]; assert (y = x) by congruence; subst y; assert (Ei := f_equal snd E); cbn in Ei; subst i; apply G in I; try lia;
        destruct I as (C & I); cbn [Z.eqb Pos.eqb]; rewrite andb_true_iff, !inner_csize by (auto; lia); (split; [split; [auto|lia]|lia]).
  Qed.

  (** the order of the trees *)
  Lemma tau_mono_lin x y : cell x -> cell y -> lin x < lin y -> tau x < tau y.
  Proof.
    intros C C' L. unfold tau. rewrite number_is. cbn [l2t]. pose proof (pts_get x C) as Gx. pose proof (pts_get y C') as Gy.
    assert (G : forall (l : list xyz) c i j a b u v, i < j -> zget l i = Some a -> zget l j = Some b -> inb a = true -> inb b = true ->
      zget (numb inb c l) i = Some u -> zget (numb inb c l) j = Some v -> c <= u /\ u < v).
    { clear. induction l as [|e l IH]; intros c i j a b u v L A B Ia Ib U V; [unfold zget in A; destruct (i <? 0), (Z.to_nat i); discriminate|].
      assert (LB : forall (l : list xyz) c i a u, zget l i = Some a -> inb a = true -> zget (numb inb c l) i = Some u -> c <= u).
      { clear. induction l as [|e l IH]; intros c i a u A I U; [unfold zget in A; destruct (i <? 0), (Z.to_nat i); discriminate|].
        rewrite zget_cons in A. cbn [numb] in U. destruct (i =? 0) eqn:E.
        - injection A as ->. rewrite I in U. rewrite zget_cons, E in U. injection U as <-. lia.
        - destruct (inb e); rewrite zget_cons, E in U; [|eauto]. specialize (IH (c + 1) _ _ _ A I U). lia. }
      cbn [numb] in U, V. pose proof (zget_range _ _ _ A) as Ri. rewrite zget_cons in A, B. replace (j =? 0) with false in B by lia. destruct (i =? 0) eqn:E.
      - injection A as ->. rewrite Ia in U, V. rewrite zget_cons in U, V. rewrite E in U. replace (j =? 0) with false in V by lia. injection U as <-.
        pose proof (LB _ _ _ _ _ B Ib V). lia.
      - destruct (inb e); rewrite zget_cons, E in U; rewrite zget_cons in V; replace (j =? 0) with false in V by lia.
        + specialize (IH (c + 1) (i - 1) (j - 1) a b u v ltac:(lia) A B Ia Ib U V). lia.
        + apply (IH c (i - 1) (j - 1) a b u v); auto. lia. }
    destruct (numb_get inb _ 0 _ _ Gx) as (u & U & _). destruct (numb_get inb _ 0 _ _ Gy) as (v & V & _). rewrite U, V. cbn [val].
    eapply (G _ 0 _ _ _ _ _ _ L Gx Gy); eauto; apply inb_cell; auto; apply cell_boxed; auto.
  Qed.
  Lemma tau_mono x y k : cell x -> cell y -> 0 <= k < 3 -> cg x k < cg y k -> (forall k', 0 <= k' < 3 -> k' <> k -> cg x k' = cg y k') -> tau x < tau y.
  Proof. intros C C' Hk L E. apply tau_mono_lin; auto. apply (x2l_mono d lg rk so x y k); auto; apply cell_boxed; auto. Qed.
End Number.
