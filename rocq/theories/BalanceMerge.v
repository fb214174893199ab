(** * The kernel without balance, and the merge of the new leaves with the old ones *)

From Coq Require Import ZArith List Bool Lia ZifyBool Sorting.Sorted Arith.Wf_nat.
From Verif Require Import Quad Spec Interval QuadLemmas CompareLemmas DescLemmas SuccLemmas RegionLemmas SearchLocal TreeLemmas Tiles Search Adapt AdaptSpec RefineLemmas CoarsenProps Balance BalanceBasics BalanceFill BalanceComplete.
Import ListNotations.
Open Scope Z_scope.

(** two leaves of a tiling that share a position are the same *)
Lemma tiles_same d T a b : tiles d a b T -> forall x y p, In x T -> In y T -> qpos d x <= p < qend d x -> qpos d y <= p < qend d y -> x = y.
Proof.
  intros HT x y p Hx Hy Px Py. apply In_nth_error in Hx, Hy. destruct Hx as (i & Ei), Hy as (j & Ej).
  assert (i = j) by (eapply (tiles_unique d T a b i j x y p); eauto). congruence.
Qed.

Section K.
  Variable d : dim.
  Notation inn w q := (qpos d w <= qpos d q /\ qend d q <= qend d w).
  Variable bsearch : list quad -> quad -> option nat.
  Variable dom : quad.
  Hypothesis Wd : wf d dom.
  Hypothesis Ld : ql dom < 29.
  Notation ml := (minlevel dom).
  Variables f l : quad.
  Hypothesis Wf : wf d f.
  Hypothesis Wl : wf d l.
  Hypothesis Lf : ql f = 29.
  Hypothesis Ll : ql l = 29.
  Hypothesis If : inn dom f.
  Hypothesis Il : inn dom l.
  Hypothesis FL : qpos d f <= qpos d l.

  Lemma fill_spec L : okl d dom l L -> exists n, forall fuel, (n <= fuel)%nat -> exists out, fill d dom fuel L (fdq d dom f) (Some f) (Some l) = Some out /\
    tiles d (qpos d f) (qend d l) out /\ Forall (just d dom L (qpos d f) (qend d l)) out /\ Forall (free d L) out.
  Proof.
    intros O. pose proof (ml_pos d dom Wd Ld) as M. pose proof (size_pos d l Wl) as Sl.
    destruct (fdq_spec d dom Wd Ld f Wf Lf If) as (Wfd & Mfd & Ifd & Pfd & Tfd). set (fd := fdq d dom f) in *.
    destruct (sentinel_spec d dom Wd Ld l Wl Ll Il) as (sent & ES & HS).
    assert (JF : just d dom L (qpos d f) (qend d l) fd).
    { destruct Tfd as [X|X]; [left; exact X|]. right. left. pose proof (parent_inn d fd Wfd ltac:(lia)). pose proof (parent_first d fd Wfd ltac:(lia)). lia. }
    assert (RUN : forall don rest, L = don ++ rest -> (forall c, In c don -> le d c fd) -> (forall q, In q rest -> le d fd q) ->
      exists n, forall fuel, (n <= fuel)%nat -> exists out', fill_loop d dom fuel (Some l) sent fd (child_id d fd) rest [] = Some out' /\
        tiles d (qpos d f) (qend d l) out' /\ Forall (just d dom L (qpos d f) (qend d l)) out' /\ Forall (free d L) out').
    { intros don rest EL H1 H2. destruct O as (S & H).
      apply (fill_run d dom Wd Ld L (qpos d f) (qend d l) (Some l) sent) with (N := Z.to_nat (qend d l - qpos d fd)); auto.
      split; [exact Wfd|]. split; [exact Mfd|]. split; [exact Ifd|]. split; [reflexivity|]. split; [lia|]. split; [cbn [tiles]; lia|]. split; [constructor|]. split; [constructor|].
      split; [exact JF|]. exists don. auto. }
    destruct (lower d dom l L fd O Wfd) as (r & E & HR). unfold fill. rewrite ES, E. destruct r as [g|].
    - destruct HR as (x & Ex & Lx & HB & HA). apply (RUN (firstn g L)).
      + symmetry. apply firstn_skipn.
      + intros c Hc. apply HB; exact Hc.
      + intros q Hq. apply (le_trans d fd x q); auto.
    - apply (RUN L []); [symmetry; apply app_nil_r|exact HR|intros q []].
  Qed.

  (** ** Completion *)
  Variable tq : list quad.
  Hypothesis NE : tq <> [].
  Hypothesis TW : forall p, In p tq -> wf d p /\ ml <= ql p /\ qpos d f <= qpos d p /\ qend d p <= qend d l.
  Hypothesis TS : StronglySorted (before d) tq.

  Lemma tq_some : exists p, In p tq.
  Proof. clear - NE. destruct tq as [|p l0]; [congruence|]. exists p. left. reflexivity. Qed.

  Lemma tq_dom p : In p tq -> inn dom p.
  Proof. intros H. destruct (TW p H) as (_ & _ & A & B). lia. Qed.

  Lemma tq_disj p q : In p tq -> In q tq -> inn p q -> p = q.
  Proof.
    intros Hp Hq I. apply In_nth_error in Hp, Hq. destruct Hp as (i & Ei), Hq as (j & Ej).
    assert (Wp : wf d p) by (apply TW; eapply nth_error_In; eauto). assert (Wq : wf d q) by (apply TW; eapply nth_error_In; eauto).
    pose proof (size_pos d p Wp). pose proof (size_pos d q Wq). destruct (Nat.lt_trichotomy i j) as [X|[X|X]]; [|congruence|].
    - pose proof (ss_nth _ _ TS i j p q X Ei Ej) as B. unfold before in B. lia.
    - pose proof (ss_nth _ _ TS j i q p X Ej Ei) as B. unfold before in B. lia.
  Qed.

  Lemma reduce_okl : reps d tq (reduce d tq) /\ okl d dom l (reduce d tq) /\ reduce d tq <> [].
  Proof.
    pose proof (ml_pos d dom Wd Ld) as M.
    assert (RP : reps d tq (reduce d tq)). { apply reduce_spec; [|exact TS]. apply Forall_forall. intros p Hp. destruct (TW p Hp) as (A & B & _). split; [exact A|lia]. }
    split; [exact RP|]. destruct RP as (A & B & C).
    assert (EL : forall r, In r (reduce d tq) -> wf d r /\ inn dom r /\ ml <= ql r /\ qpos d r < qend d l /\ 0 < ql r /\ qpos d r = qpos d (parent d r) /\ qpos d (parent d r) < qend d (parent d r)).
    { intros r Hr. destruct (A r Hr) as (p & Hp & ->). destruct (TW p Hp) as (Wp & Mp & P1 & P2). destruct (sib0 d p Wp ltac:(lia)) as (Ws & Ls & Ps & Cs & Qs).
      pose proof (inn_parent d dom p Wd Wp (tq_dom p Hp) ltac:(unfold minlevel in *; lia)). pose proof (parent_inn d p Wp ltac:(lia)). pose proof (size_pos d p Wp).
      pose proof (parent_inn d _ Ws ltac:(lia)) as J. rewrite Ps in J. rewrite Ps. split; [exact Ws|]. lia. }
    split; [split; [|intros r Hr; destruct (EL r Hr) as (E1 & E2 & E3 & E4 & _); auto]|].
    - clear A B. induction C as [|r R S IH F]; constructor.
      + apply IH. intros; apply EL; right; assumption.
      + rewrite Forall_forall in *. intros s Hs. specialize (F s Hs). destruct (EL r (or_introl eq_refl)) as (_ & _ & _ & _ & _ & Q1 & Q2). destruct (EL s (or_intror Hs)) as (_ & _ & _ & _ & _ & Q3 & _).
        left. lia.
    - destruct tq_some as (p & Hp). destruct (B p Hp) as (r & Hr & _). intros X. rewrite X in Hr. destruct Hr.
  Qed.

  Theorem kernel_complete : exists n, forall fuel, (n <= fuel)%nat -> exists out,
    kernel d bsearch dom fuel 1 (reduce d tq) (Some f) (Some l) = Some out /\
    tiles d (qpos d f) (qend d l) out /\ (forall p, In p tq -> In p out) /\
    (forall T, tiles d (qpos d f) (qend d l) T -> (forall p, In p tq -> In p T) -> forall w', In w' T -> exists w, In w out /\ inn w w').
  Proof.
    pose proof (ml_pos d dom Wd Ld) as M. destruct reduce_okl as ((RA & RB & RC) & O & RN). set (R := reduce d tq) in *.
    destruct (add_first_spec d dom Wd Ld f l Wf Wl Lf If FL R O) as (R1 & E1 & O1 & A1 & B1 & _).
    assert (N1 : R1 <> []). { destruct R as [|r R']; [congruence|]. intros ->. apply (B1 r). left; reflexivity. }
    destruct (add_last_spec d dom Wd Ld l Wl Ll Il R1 O1 N1) as (R2 & E2 & O2 & A2 & B2 & _).
    destruct (fill_spec R2 O2) as (n & Hn). exists n. intros fuel Hf. destruct (Hn fuel Hf) as (out & E3 & TI & FJ & FF). exists out.
    split. { unfold kernel. rewrite E1, E2. cbn [Z.gtb Z.compare]. change (1 >? 1) with false. cbn match. exact E3. }
    split; [exact TI|]. rewrite Forall_forall in FJ, FF.
    assert (MEM : forall q, In q R2 -> (exists p, In p tq /\ q = sibling d p 0) \/ q = uq d dom f \/ q = vq d dom l).
    { intros q Hq. destruct (A2 q Hq) as [H|H]; [|auto]. destruct (A1 q H) as [H'|H']; [left; apply RA; exact H'|auto]. }
    (* what lies strictly inside a quadrant that lies in the range *)
    assert (KEY : forall x q, wf d x -> ml <= ql x -> qpos d f <= qpos d x -> qend d x <= qend d l -> In q R2 -> inn x q -> ql x < ql q -> exists p, In p tq /\ inn x p /\ ql x < ql p).
    { intros x q Wx Mx X1 X2 Hq Iq Lq. destruct (MEM q Hq) as [(p & Hp & ->)|[->| ->]].
      - destruct (TW p Hp) as (Wp & Mp & _). destruct (sib0 d p Wp ltac:(lia)) as (Ws & Ls & Ps & Cs & Qs).
        pose proof (inn_parent d x _ Wx Ws Iq Lq) as J. rewrite Ps in J. pose proof (parent_inn d p Wp ltac:(lia)). exists p. split; [exact Hp|]. lia.
      - exfalso. destruct (uq_spec d dom Wd Ld f Wf Lf If) as (Wu & Lu & Pu & Qu & Iu & LEu & Ipu). destruct (fdq_spec d dom Wd Ld f Wf Lf If) as (Wfd & Mfd & Ifd & Pfd & Tfd).
        pose proof (inn_parent d x _ Wx Wu Iq Lq) as J. rewrite Pu in J. destruct Tfd as [Y|Y]; [lia|].
        pose proof (parent_first d _ Wfd ltac:(lia)) as PF. pose proof (parent_inn d _ Wfd ltac:(lia)). lia.
      - exfalso. destruct (vq_spec d dom Wd Ld l Wl Ll Il) as (Wu & Lu & Pu & Qu & Iu & LEu & _ & Ipu). destruct (ldq_spec d dom Wd Ld l Wl Ll Il) as (Wfd & Mfd & Ifd & Pfd & Tfd).
        pose proof (inn_parent d x _ Wx Wu Iq Lq) as J. rewrite Pu in J. destruct Tfd as [Y|Y]; [lia|].
        pose proof (parent_last d _ Wfd ltac:(lia)) as PF. pose proof (parent_inn d _ Wfd ltac:(lia)). lia. }
    assert (OW : forall w, In w out -> wf d w) by (apply Forall_forall; eapply tiles_wf; exact TI).
    split.
    - intros p Hp. destruct (TW p Hp) as (Wp & Mp & P1 & P2). pose proof (size_pos d p Wp) as Sp.
      destruct (proj1 (tiles_cover d out _ _ (qpos d p) TI) ltac:(lia)) as (w & Hw & Pw). specialize (OW w Hw).
      destruct (Z.lt_trichotomy (ql w) (ql p)) as [X|[X|X]].
      + exfalso. destruct (RB p Hp) as (r & Hr & Ir).
        assert (I : inn w p) by (apply (nested_pt d w p (qpos d p)); auto; lia). pose proof (inn_parent d w p OW Wp I X) as J.
        destruct (RA r Hr) as (p' & Hp' & ->). destruct (TW p' Hp') as (Wp' & Mp' & _). destruct (sib0 d p' Wp' ltac:(lia)) as (Ws & Ls & Ps & Cs & Qs). rewrite Ps in Ir.
        destruct (parent_wf d p Wp ltac:(lia)) as (Wpp & Lpp & _). destruct (parent_wf d p' Wp' ltac:(lia)) as (Wpp' & Lpp' & _).
        pose proof (inn_level d _ _ Wpp Wpp' Ir). pose proof (parent_inn d _ Ws ltac:(lia)) as JS. rewrite Ps in JS.
        apply (FF w Hw (sibling d p' 0)); [apply B2, B1; exact Hr|]. split; [|lia]. lia.
      + assert (I : inn w p) by (apply (nested_pt d w p (qpos d p)); auto; lia). rewrite <- (inn_eq d w p OW Wp I ltac:(lia)). exact Hw.
      + exfalso. assert (I : inn p w) by (apply (nested_pt d p w (qpos d p)); auto; lia). pose proof (inn_parent d p w Wp OW I X) as J.
        destruct (parent_wf d w OW ltac:(lia)) as (Wpw & Lpw & _).
        destruct (FJ w Hw) as [Y|[Y|[Y|(q & Hq & Iq & Lq)]]]; [lia|lia|lia|].
        destruct (KEY p q Wp Mp P1 P2 Hq ltac:(lia) ltac:(lia)) as (p' & Hp' & Ip' & Lp').
        assert (p = p') by (apply tq_disj; auto). subst. lia.
    - intros T HT HI w' Hw'. assert (Ww' : wf d w') by (pose proof (tiles_wf d T _ _ HT) as F; rewrite Forall_forall in F; auto). pose proof (size_pos d w' Ww') as Sw'.
      destruct (tiles_bounds d T _ _ w' HT Hw') as (B3 & B4).
      destruct (proj1 (tiles_cover d out _ _ (qpos d w') TI) ltac:(lia)) as (w & Hw & Pw). specialize (OW w Hw). exists w. split; [exact Hw|].
      destruct (Z_le_dec (ql w) (ql w')) as [X|X]; [apply (nested_pt d w w' (qpos d w')); auto; lia|exfalso].
      assert (I : inn w' w) by (apply (nested_pt d w' w (qpos d w')); auto; lia). pose proof (wf_level d w' Ww') as Lw'. pose proof (inn_parent d w' w Ww' OW I ltac:(lia)) as J.
      destruct (parent_wf d w OW ltac:(lia)) as (Wpw & Lpw & _).
      assert (INT : forall p, In p tq -> inn w' p -> ql w' < ql p -> False).
      { intros p Hp Ip Lp. destruct (TW p Hp) as (Wp & _). pose proof (size_pos d p Wp). assert (w' = p) by (apply (tiles_same d T _ _ HT w' p (qpos d p)); auto; lia). subst. lia. }
      assert (DOM : w' = dom -> False).
      { intros ->. destruct tq_some as (p & Hp). apply (INT p Hp); [apply tq_dom; exact Hp|].
        destruct (TW p Hp) as (_ & Mp & _). unfold minlevel in *. lia. }
      assert (MW : ml <= ql w').
      { destruct (Z_le_dec ml (ql w')) as [Y|Y]; [exact Y|exfalso]. apply DOM.
        assert (inn dom w') by lia. pose proof (inn_level d dom w' Wd Ww' H). symmetry. apply (inn_eq d); auto. unfold minlevel in *. lia. }
      destruct (FJ w Hw) as [Y|[Y|[Y|(q & Hq & Iq & Lq)]]]; [lia|lia|lia|].
      pose proof (inn_level d w' (parent d w) Ww' Wpw J).
      destruct (KEY w' q Ww' MW B3 B4 Hq ltac:(lia) ltac:(lia)) as (p & Hp & Ip & Lp). exact (INT p Hp Ip Lp).
  Qed.
End K.

(** ** Merge *)
Section M.
  Variable d : dim.
  Notation inn w q := (qpos d w <= qpos d q /\ qend d q <= qend d w).
  Variables (St D : Type).
  Local Notation leaf := (quad * D)%type.
  Variable init_fn : St -> Z -> quad -> St * D.
  Variable t : Z.

  (** the leaves ws with the data of the leaves in old; the callback makes the data of the others *)
  Fixpoint refill (old : list leaf) (s : St) (ws : list quad) : St * list leaf :=
    match ws with
    | [] => (s, [])
    | w :: ws' =>
      match find (fun e => is_equal d w (fst e)) old with
      | Some (_, v) => let (s', r) := refill old s ws' in (s', (w, v) :: r)
      | None => let (s1, v) := init_fn s t w in let (s', r) := refill old s1 ws' in (s', (w, v) :: r)
      end
    end.

  Lemma refill_fst old : forall ws s, map fst (snd (refill old s ws)) = ws.
  Proof.
    induction ws as [|w ws IH]; intros s; cbn [refill]; [reflexivity|]. destruct (find _ old) as [(q, v)|].
    - specialize (IH s). destruct (refill old s ws). cbn [snd map fst] in *. congruence.
    - destruct (init_fn s t w) as (s1, v). specialize (IH s1). destruct (refill old s1 ws). cbn [snd map fst] in *. congruence.
  Qed.

  Lemma refill_app old : forall a s b, refill old s (a ++ b) = let (s1, r1) := refill old s a in let (s2, r2) := refill old s1 b in (s2, r1 ++ r2).
  Proof.
    induction a as [|w a IH]; intros s b; cbn [refill app]; [destruct (refill old s b); reflexivity|]. destruct (find _ old) as [(q, v)|].
    - rewrite IH. destruct (refill old s a) as (s1, r1). destruct (refill old s1 b). reflexivity.
    - destruct (init_fn s t w) as (s1, v). rewrite IH. destruct (refill old s1 a) as (s2, r1). destruct (refill old s2 b). reflexivity.
  Qed.

  Definition grown (st st' : mst St D) (del : list quad) (r : St * list leaf) : Prop :=
    m_s _ _ st' = fst r /\ m_arr _ _ st' = m_arr _ _ st ++ snd r /\
    (forall i, m_pl _ _ st' i = m_pl _ _ st i + nlev i (snd r) - nlev i (map (fun q => (q, tt)) del)).

  Definition fresh (old : list leaf) (ws : list quad) : Prop := forall w, In w ws -> find (fun e => is_equal d w (fst e)) old = None.

  Lemma minit_fold old : forall ws st, fresh old ws -> 0 <= m_max _ _ st ->
    grown st (fold_left (minit St D init_fn t) ws st) [] (refill old (m_s _ _ st) ws) /\
    m_max _ _ (fold_left (minit St D init_fn t) ws st) = Z.max (m_max _ _ st) (maxlev (map (fun q => (q, tt)) ws)) \/ ws = [].
  Proof.
    induction ws as [|w ws IH]; intros st F NN; [right; reflexivity|left]. cbn [fold_left refill]. rewrite (F w (or_introl eq_refl)).
    unfold minit at 2 4. destruct (init_fn (m_s _ _ st) t w) as (s1, v) eqn:EI.
    set (st1 := mkmst St D s1 (bump (m_pl _ _ st) (ql w) 1) (Z.max (m_max _ _ st) (ql w)) (m_arr _ _ st ++ [(w, v)])).
    destruct (IH st1 ltac:(intros x Hx; apply F; right; exact Hx) ltac:(cbn [m_max st1]; lia)) as [((G1 & G2 & G3) & G4)| ->].
    - cbn [m_s] in *. change (m_s _ _ st1) with s1 in *. destruct (refill old s1 ws) as (s2, r). cbn [fst snd] in *.
      split; [split; [exact G1|split]|].
      + rewrite G2. cbn [m_arr st1]. rewrite <- app_assoc. reflexivity.
      + intros i. rewrite G3. cbn [m_pl st1 snd]. rewrite nlev_cons. cbn [fst]. unfold bump. destruct (i =? ql w) eqn:X; destruct (ql w =? i) eqn:Y; lia.
      + rewrite G4. cbn [m_max st1 map]. unfold maxlev at 2. cbn [fold_right fst]. fold (maxlev (map (fun q => (q, tt)) ws)). lia.
    - cbn [fold_left refill fst snd map]. split; [split; [reflexivity|split]|].
      + reflexivity.
      + intros i. cbn [m_pl st1 snd]. rewrite nlev_cons. unfold nlev. cbn [fst filter length]. unfold bump. destruct (i =? ql w) eqn:X; destruct (ql w =? i) eqn:Y; cbn; lia.
      + cbn [m_max st1]. unfold maxlev. cbn. lia.
  Qed.

  Lemma take_desc_spec q : wf d q -> forall os a b, tiles d a b os -> qpos d q <= a -> a <= qend d q <= b ->
    (forall w, In w os -> qpos d w < qend d q -> ql q < ql w) ->
    exists x y, take_desc d q os = (x, y) /\ os = x ++ y /\ tiles d a (qend d q) x /\ tiles d (qend d q) b y /\ (forall w, In w x -> inn q w /\ ql q < ql w).
  Proof.
    intros Wq. induction os as [|w os IH]; intros a b T A B H; cbn [take_desc].
    - cbn [tiles] in T. exists [], []. cbn [tiles]. repeat split; try lia; match goal with H : In _ [] |- _ => destruct H end.
    - destruct T as (Ww & Pw & T). pose proof (size_pos d w Ww). pose proof (tiles_le d _ _ _ T).
      destruct (Z_lt_dec a (qend d q)) as [X|X].
      + assert (LW : ql q < ql w) by (apply H; [left; reflexivity|lia]). assert (I : inn q w) by (apply (nested_pt d q w (qpos d w)); auto; pose proof (size_pos d q Wq); lia).
        rewrite (proj2 (anc_iff d q w Wq Ww)) by auto.
        destruct (IH (qend d w) b T ltac:(lia) ltac:(lia) ltac:(intros; apply H; auto; right; auto)) as (x & y & E & Eo & T1 & T2 & HX). rewrite E.
        exists (w :: x), y. split; [reflexivity|]. split; [cbn [app]; congruence|]. split; [cbn [tiles]; auto|]. split; [exact T2|]. intros z [<-|Hz]; [auto|apply HX; exact Hz].
      + assert (NA : is_ancestor d q w = false). { apply not_true_is_false. intros X'. apply anc_iff in X'; auto. lia. }
        rewrite NA. exists [], (w :: os). split; [reflexivity|]. split; [reflexivity|]. split; [cbn [tiles]; lia|]. split; [cbn [tiles]; split; [exact Ww|split; [lia|exact T]]|]. intros z [].
  Qed.

  Lemma find_none (old : list leaf) w : wf d w -> (forall e, In e old -> wf d (fst e) /\ fst e <> w) -> find (fun e => is_equal d w (fst e)) old = None.
  Proof.
    intros W. induction old as [|e old IH]; intros H; cbn [find]; [reflexivity|]. destruct (H e (or_introl eq_refl)) as (We & Ne).
    destruct (is_equal d w (fst e)) eqn:E; [|apply IH; intros; apply H; right; auto]. apply is_equal_eq in E; auto. congruence.
  Qed.
  Lemma find_here (pre : list leaf) q v post : wf d q -> (forall e, In e pre -> wf d (fst e) /\ fst e <> q) -> find (fun e => is_equal d q (fst e)) (pre ++ (q, v) :: post) = Some (q, v).
  Proof.
    intros W. induction pre as [|e pre IH]; intros H; cbn [find app].
    - cbn [fst]. rewrite (proj2 (is_equal_eq d q q W W) eq_refl). reflexivity.
    - destruct (H e (or_introl eq_refl)) as (We & Ne). destruct (is_equal d q (fst e)) eqn:E; [|apply IH; intros; apply H; right; auto]. apply is_equal_eq in E; auto. congruence.
  Qed.

  Lemma maxlev_tt ws : forall (r : list leaf), map fst r = ws -> maxlev (map (fun q => (q, tt)) ws) = maxlev r.
  Proof. intros r <-. induction r as [|e r IH]; cbn; [reflexivity|]. unfold maxlev in *. cbn in *. lia. Qed.
  Lemma nlev_tt i ws : forall (r : list leaf), map fst r = ws -> nlev i (map (fun q => (q, tt)) ws) = nlev i r.
  Proof. intros r <-. induction r as [|e r IH]; cbn [map]; [reflexivity|]. rewrite !nlev_cons, IH. reflexivity. Qed.

  Lemma merge_spec old : forall fuel ts os pre st a b, (length ts + length os < fuel)%nat -> old = pre ++ ts ->
    Forall (fun e => wf d (fst e)) old -> StronglySorted (before d) (map fst old) ->
    tiles d a b os -> (forall e, In e pre -> qend d (fst e) <= a) -> (forall e, In e ts -> a <= qpos d (fst e) /\ qend d (fst e) <= b) ->
    (forall e w, In e ts -> In w os -> ~ (inn w (fst e) /\ ql w < ql (fst e))) -> maxlev ts <= m_max _ _ st ->
    exists st', merge_loop d St D init_fn t fuel ts os st = Some st' /\
      m_s _ _ st' = fst (refill old (m_s _ _ st) os) /\ m_arr _ _ st' = m_arr _ _ st ++ snd (refill old (m_s _ _ st) os) /\
      (forall i, m_pl _ _ st' i = m_pl _ _ st i + nlev i (snd (refill old (m_s _ _ st) os)) - nlev i ts) /\
      m_max _ _ st' = Z.max (m_max _ _ st) (maxlev (snd (refill old (m_s _ _ st) os))).
  Proof.
    induction fuel as [|fuel IH]; intros ts os pre st a b HF EO FW SB T HP HT HN HM; [lia|]. cbn [merge_loop].
    assert (OW : forall e, In e old -> wf d (fst e)) by (rewrite Forall_forall in FW; exact FW).
    assert (TSW : forall w, In w os -> wf d w) by (apply Forall_forall; eapply tiles_wf; exact T).
    destruct ts as [|(q, v) ts'].
    - (* only new leaves remain *)
      assert (FR : fresh old os).
      { intros w Hw. apply find_none; [auto|]. intros e He. split; [auto|]. intros X. rewrite EO, app_nil_r in He. specialize (HP e He). pose proof (tiles_bounds d _ _ _ w T Hw).
        pose proof (size_pos d w (TSW w Hw)). rewrite X in HP. lia. }
      exists (fold_left (minit St D init_fn t) os st). split; [reflexivity|].
      destruct (minit_fold old os st FR ltac:(pose proof (maxlev_nonneg (@nil (quad * D))); lia)) as [((G1 & G2 & G3) & G4)| ->].
      + split; [exact G1|]. split; [exact G2|]. split; [intros i; rewrite G3; unfold nlev at 4; unfold nlev at 2; cbn; lia|]. rewrite G4. f_equal. apply maxlev_tt. apply refill_fst.
      + cbn [fold_left refill fst snd]. split; [reflexivity|]. split; [symmetry; apply app_nil_r|]. split; [intros i; unfold nlev; cbn; lia|]. unfold maxlev in *; cbn in *; lia.
    - destruct (HT (q, v) (or_introl eq_refl)) as (Q1 & Q2). cbn [fst] in Q1, Q2. assert (Wq : wf d q) by (apply (OW (q, v)); rewrite EO; apply in_or_app; right; left; reflexivity).
      pose proof (size_pos d q Wq) as Sq. destruct os as [|p os']; [cbn [tiles] in T; lia|]. destruct T as (Wp & Pp & T). pose proof (size_pos d p Wp) as Sp. pose proof (tiles_le d _ _ _ T) as LT.
      assert (TSA : forall e, In e ts' -> qend d q <= qpos d (fst e)).
      { intros e He. rewrite EO, map_app in SB. cbn [map fst] in SB. apply (ss_mid _ _ _ _ SB (fst e)). apply in_map. exact He. }
      assert (HN0 : ~ (inn p q /\ ql p < ql q)) by (apply (HN (q, v) p); left; reflexivity).
      assert (HMQ : ql q <= m_max _ _ st /\ maxlev ts' <= m_max _ _ st) by (unfold maxlev in HM |- *; cbn [fold_right fst] in HM; lia).
      pose proof (compare_wf d p q Wp Wq) as (CL & CE & CG).
      destruct (compare d p q <? 0) eqn:EC.
      + (* a gap *)
        assert (PQ : qend d p <= qpos d q).
        { assert (X : compare d p q < 0) by lia. apply CL in X. destruct (Z_lt_dec (ql p) (ql q)) as [Y|Y].
          - destruct (nested d p q Wp Wq ltac:(lia)) as [Z|[Z|Z]]; [tauto|lia|lia].
          - destruct (nested d q p Wq Wp ltac:(lia)) as [Z|[Z|Z]]; lia. }
        destruct os' as [|p2 os''] eqn:Eo; [cbn [tiles] in T; lia|]. rewrite <- Eo in *.
        assert (FP : find (fun e => is_equal d p (fst e)) old = None).
        { apply find_none; [exact Wp|]. intros e He. split; [auto|]. intros X. assert (PE : qpos d (fst e) = qpos d p) by (rewrite X; reflexivity). rewrite EO in He. apply in_app_or in He. destruct He as [He|[<-|He]].
          - specialize (HP e He). rewrite X in HP. lia.
          - cbn [fst] in PE. lia.
          - specialize (TSA e He). lia. }
        destruct (IH ((q, v) :: ts') os' pre (minit St D init_fn t st p) (qend d p) b) as (st' & E & G1 & G2 & G3 & G4); auto.
        { cbn [length] in HF |- *. lia. }
        { intros e He. specialize (HP e He). lia. }
        { intros e [<-|He]; [cbn [fst]; lia|]. destruct (HT e (or_intror He)). specialize (TSA e He). lia. }
        { intros e w He Hw. apply HN; auto. right; exact Hw. }
        { unfold minit. destruct (init_fn _ t p). cbn [m_max]. lia. }
        exists st'. split; [exact E|]. cbn [refill]. rewrite FP. unfold minit in G1, G2, G3, G4. destruct (init_fn (m_s _ _ st) t p) as (s1, v1). cbn [m_s m_arr m_pl m_max] in *.
        destruct (refill old s1 os') as (s2, r). cbn [fst snd] in *. split; [exact G1|]. split; [rewrite G2, <- app_assoc; reflexivity|]. split.
        * intros i. rewrite G3. rewrite (nlev_cons i (p, v1)). cbn [fst]. unfold bump. destruct (i =? ql p) eqn:X; destruct (ql p =? i) eqn:Y; lia.
        * rewrite G4. unfold maxlev at 2. cbn [fold_right fst]. fold (maxlev r). lia.
      + assert (CN : ~ (qpos d p < qpos d q \/ qpos d p = qpos d q /\ ql p < ql q)) by (rewrite <- CL; lia).
        assert (PQ : qpos d p = qpos d q) by lia. assert (LQ : ql q <= ql p) by lia.
        destruct (ql q <? ql p) eqn:EL.
        * (* q is split *)
          assert (TI : tiles d a b (p :: os')) by (cbn [tiles]; auto).
          destruct (take_desc_spec q Wq (p :: os') a b TI ltac:(lia) ltac:(lia)) as (x & y & E & Eo & T1 & T2 & HX).
          { intros w Hw Pw. assert (Ww : wf d w) by auto. pose proof (tiles_bounds d _ _ _ w TI Hw). pose proof (size_pos d w Ww).
            destruct (Z_lt_dec (ql q) (ql w)) as [Y|Y]; [exact Y|exfalso].
            assert (I : inn w q) by (apply (nested_pt d w q (qpos d w)); auto; lia).
            destruct (Z.eq_dec (ql w) (ql q)) as [Z|Z]; [|apply (HN (q, v) w (or_introl eq_refl) Hw); cbn [fst]; split; [exact I|lia]].
            assert (EW : w = q) by (apply (inn_eq d); auto; lia). assert (EP : p = w) by (apply (tiles_same d _ _ _ TI p w (qpos d p)); [left; reflexivity|exact Hw|lia|rewrite EW; lia]).
            rewrite EP, EW in EL. lia. }
          rewrite E.
          assert (FR : fresh old x).
          { intros w Hw. destruct (HX w Hw) as (I & L). assert (Ww : wf d w) by (apply TSW; rewrite Eo; apply in_or_app; auto). pose proof (size_pos d w Ww).
            apply find_none; [exact Ww|]. intros e He. split; [auto|]. intros X. assert (PE : qpos d (fst e) = qpos d w) by (rewrite X; reflexivity). assert (EE : qend d (fst e) = qend d w) by (rewrite X; reflexivity).
            rewrite EO in He. apply in_app_or in He. destruct He as [He|[<-|He]].
            - specialize (HP e He). lia.
            - cbn [fst] in X. rewrite X in L. lia.
            - specialize (TSA e He). lia. }
          set (st0 := mkmst St D (m_s _ _ st) (bump (m_pl _ _ st) (ql q) (-1)) (m_max _ _ st) (m_arr _ _ st)).
          assert (NX : x <> []). { intros ->. cbn [tiles] in T1. lia. }
          destruct (minit_fold old x st0 FR ltac:(cbn [m_max st0]; pose proof (maxlev_nonneg ts'); lia)) as [((F1 & F2 & F3) & F4)|X]; [|congruence].
          set (st1 := fold_left (minit St D init_fn t) x st0) in *.
          destruct (IH ts' y (pre ++ [(q, v)]) st1 (qend d q) b) as (st' & E' & G1 & G2 & G3 & G4); auto.
          { rewrite Eo in HF. cbn [length] in HF. rewrite app_length in HF. lia. }
          { rewrite <- app_assoc. exact EO. }
          { intros e He. apply in_app_or in He. destruct He as [He|[<-|[]]]; [specialize (HP e He)|cbn [fst]]; lia. }
          { intros e He. destruct (HT e (or_intror He)). specialize (TSA e He). lia. }
          { intros e w He Hw. apply HN; [right; exact He|]. rewrite Eo. apply in_or_app; auto. }
          { rewrite F4. cbn [m_max st0]. lia. }
          exists st'. split; [exact E'|]. rewrite Eo, refill_app. change (m_s _ _ st0) with (m_s _ _ st) in *.
          pose proof (refill_fst old x (m_s _ _ st)) as RF. destruct (refill old (m_s _ _ st) x) as (s1, r1). cbn [fst snd] in *. rewrite F1 in *. destruct (refill old s1 y) as (s2, r2). cbn [fst snd] in *.
          split; [exact G1|]. split; [rewrite G2, F2; cbn [m_arr st0]; rewrite app_assoc; reflexivity|]. split.
          -- intros i. rewrite G3, F3. cbn [m_pl st0]. rewrite nlev_app, nlev_cons. cbn [fst]. unfold nlev at 2. cbn [map filter length]. unfold bump. destruct (i =? ql q) eqn:X; destruct (ql q =? i) eqn:Y; lia.
          -- rewrite G4, F4. cbn [m_max st0]. rewrite maxlev_app, (maxlev_tt x r1 RF). lia.
        * assert (PEQ : p = q) by (apply (quad_eq d); auto; lia). subst p.
          assert (FP : find (fun e => is_equal d q (fst e)) old = Some (q, v)).
          { rewrite EO. apply find_here; [exact Wq|]. intros e He. split; [apply OW; rewrite EO; apply in_or_app; auto|]. intros X. specialize (HP e He). rewrite X in HP. lia. }
          destruct (IH ts' os' (pre ++ [(q, v)]) (mkmst St D (m_s _ _ st) (m_pl _ _ st) (m_max _ _ st) (m_arr _ _ st ++ [(q, v)])) (qend d q) b) as (st' & E' & G1 & G2 & G3 & G4); auto.
          { cbn [length] in HF |- *. lia. }
          { rewrite <- app_assoc. exact EO. }
          { intros e He. apply in_app_or in He. destruct He as [He|[<-|[]]]; [specialize (HP e He)|cbn [fst]]; lia. }
          { intros e He. destruct (HT e (or_intror He)). specialize (TSA e He). lia. }
          { intros e w He Hw. apply HN; right; auto. }
          { cbn [m_max]. lia. }
          exists st'. split; [exact E'|]. cbn [refill]. rewrite FP. cbn [m_s m_arr m_pl m_max] in *. destruct (refill old (m_s _ _ st) os') as (s2, r). cbn [fst snd] in *.
          split; [exact G1|]. split; [rewrite G2, <- app_assoc; reflexivity|]. split.
          -- intros i. rewrite G3, (nlev_cons i (q, v) r), (nlev_cons i (q, v) ts'). cbn [fst]. lia.
          -- rewrite G4. unfold maxlev at 2. cbn [fold_right fst]. fold (maxlev r). lia.
  Qed.
End M.
