(** * The kernel with balance, for the leaves of a tree without gaps *)

From Coq Require Import ZArith List Bool Lia ZifyBool Sorting.Sorted.
From Verif Require Import Quad Spec Interval QuadLemmas CompareLemmas DescLemmas SearchLocal TreeLemmas Tiles Adapt Balance BalanceBasics BalanceGeom BalanceHood BalanceFill BalanceComplete BalanceMerge BalanceState BalanceClosed.
Import ListNotations.
Open Scope Z_scope.

(** balance: a leaf next to another one, across a face, an edge or a corner as k says, has at least its level less 1 *)
Definition balanced (d : dim) (k : Z) (T : list quad) : Prop :=
  forall w1 w2 o, In w1 T -> In w2 T -> offset d k o -> wf d (shift w2 o) -> qpos d w1 <= qpos d (shift w2 o) /\ qend d (shift w2 o) <= qend d w1 -> ql w2 <= ql w1 + 1.

Lemma maxlevel_ge l : forall m, m <= fold_left (fun m q => Z.max m (ql q)) l m /\ forall r, In r l -> ql r <= fold_left (fun m q => Z.max m (ql q)) l m.
Proof.
  induction l as [|q l IH]; intros m; cbn [fold_left]; [split; [lia|intros r []]|]. destruct (IH (Z.max m (ql q))) as (A & B). split; [lia|]. intros r [->|H]; [lia|auto].
Qed.

(** what is left of an offset for the parent *)
Lemma leaving_cases d k pid o : offset d k o -> leaving d pid o = (0, 0, 0) \/ offset d k (leaving d pid o).
Proof.
  destruct o as ((a, b), c). intros (Ha & Hb & Hc & HD & HS). unfold leaving.
  assert (P : forall x y, -1 <= y <= 1 -> -1 <= part x y <= 1 /\ Z.abs (part x y) <= Z.abs y). { intros [|] y Hy; unfold part; destruct (y =? 1) eqn:E1; destruct (y =? -1) eqn:E2; lia. }
  pose proof (P (nz (Z.land pid 1)) a Ha) as PA. pose proof (P (nz (Z.land pid 2)) b Hb) as PB. pose proof (P (nz (Z.land pid 4)) c Hc) as PC.
  set (a' := part (nz (Z.land pid 1)) a) in *. set (b' := part (nz (Z.land pid 2)) b) in *. set (c' := part (nz (Z.land pid 4)) c) in *.
  unfold offset. destruct d; cbn [is3].
  - destruct (Z.eq_dec (Z.abs a' + Z.abs b') 0) as [E|E]; [left; replace a' with 0 by lia; replace b' with 0 by lia; reflexivity|right]. repeat (split; [lia|]). lia.
  - destruct (Z.eq_dec (Z.abs a' + Z.abs b' + Z.abs c') 0) as [E|E]; [left; replace a' with 0 by lia; replace b' with 0 by lia; replace c' with 0 by lia; reflexivity|right]. repeat (split; [first [lia|discriminate]|]). lia.
Qed.

(** the leaf at the side of q in the direction of o *)
Lemma edge_leaf d k q o V a : wf d q -> offset d k o -> wf d a -> tiles d (qpos d a) (qend d a) V -> qpos d a <= qpos d q /\ qend d q <= qend d a ->
  exists u y, In u V /\ qpos d q <= y < qend d q /\ qpos d u <= y < qend d u /\
    (qpos d q <= qpos d u /\ qend d u <= qend d q -> wf d (shift q o) -> wf d (shift u o) /\ qpos d (shift q o) <= qpos d (shift u o) /\ qend d (shift u o) <= qend d (shift q o)).
Proof.
  intros Wq OF Wa TV I. assert (VW : forall u, In u V -> wf d u) by (apply Forall_forall; eapply tiles_wf; exact TV). pose proof (wf_level d q Wq) as Lq. pose proof (side_pos (ql q) ltac:(lia)) as SP.
  destruct o as ((x, y), z). pose proof OF as (Ha & Hb & Hc & HD & _).
  set (px := edge_pt (qx q) (side (ql q)) x). set (py := edge_pt (qy q) (side (ql q)) y). set (pz := match d with D2 => 0 | D3 => edge_pt (qz q) (side (ql q)) z end).
  assert (IQ : inq d q px py pz).
  { unfold inq, px, py, pz, edge_pt. pose proof (wf_z d q Wq). destruct (x =? 1), (y =? 1), d, (z =? 1); lia. }
  pose proof IQ as IQ2. apply (inq_pos d q _ _ _ Wq) in IQ2. destruct IQ2 as (IR & PP).
  destruct (proj1 (tiles_cover d V _ _ (ppos d px py pz) TV)) as (u & Hu & Pu); [lia|]. exists u. eexists. split; [exact Hu|]. split; [exact PP|]. split; [exact Pu|].
  intros J Ws. apply (shift_down d q u (x, y, z)); auto; [|apply (inn_level d); auto]. apply (inq_pos d u _ _ _ (VW u Hu)). auto.
Qed.

Section K.
  Variable d : dim.
  Notation inn w q := (qpos d w <= qpos d q /\ qend d q <= qend d w).
  Variable bsearch : list quad -> quad -> option nat.
  Hypothesis BS : bsearch_ok d bsearch.
  Variable dom : quad.
  Hypothesis Wd : wf d dom.
  Hypothesis Ld : ql dom < 29.
  Notation ml := (minlevel dom).
  Variable k : Z.
  Hypothesis Hk : 1 <= k <= dimz d.
  Variables f l : quad.
  Hypothesis Wf : wf d f.
  Hypothesis Wl : wf d l.
  Hypothesis Lf : ql f = 29.
  Hypothesis Ll : ql l = 29.
  Hypothesis If : inn dom f.
  Hypothesis Il : inn dom l.
  Hypothesis FL : qpos d f <= qpos d l.
  Variable tq : list quad.
  Hypothesis TT : tiles d (qpos d f) (qend d l) tq.
  Hypothesis TM : forall p, In p tq -> ml <= ql p.

  Lemma t_wf p : In p tq -> wf d p. Proof. pose proof (tiles_wf d tq _ _ TT) as F. rewrite Forall_forall in F. apply F. Qed.
  Lemma t_in p : In p tq -> qpos d f <= qpos d p /\ qend d p <= qend d l. Proof. intros H. apply (tiles_bounds d tq _ _ p TT H). Qed.
  Lemma t_dom p : In p tq -> inn dom p. Proof. intros H. pose proof (t_in p H). lia. Qed.
  Lemma t_at x : qpos d f <= x < qend d l -> exists p, In p tq /\ qpos d p <= x < qend d p.
  Proof. intros H. apply (tiles_cover d tq _ _ x TT). exact H. Qed.
  Lemma t_ne : tq <> [].
  Proof. pose proof (size_pos d l Wl). destruct (t_at (qpos d f) ltac:(lia)) as (p & H1 & _). intros X. rewrite X in H1. destruct H1. Qed.

  Notation R := (reduce d tq).

  Lemma R_okl : reps d tq R /\ okl d dom l R /\ R <> [].
  Proof.
    apply (reduce_okl d dom Wd Ld f l If Il tq t_ne).
    - intros p Hp. split; [apply t_wf; exact Hp|]. split; [apply TM; exact Hp|]. apply t_in. exact Hp.
    - eapply tiles_linear. exact TT.
  Qed.

  Lemma R_reps r : In r R -> exists n, r = rep n /\ wf d n /\ inn dom n /\ ql n < 29.
  Proof.
    intros Hr. destruct R_okl as ((A & _) & _). destruct (A r Hr) as (p & Hp & ->). pose proof (t_wf p Hp) as Wp. pose proof (TM p Hp) as Mp. unfold minlevel in Mp. pose proof (wf_level d dom Wd). pose proof (wf_level d p Wp).
    destruct (parent_wf d p Wp ltac:(lia)) as (Wn & Ln & _). exists (parent d p). split; [apply sibling0_rep; auto; lia|]. split; [exact Wn|]. split; [apply inn_parent; auto; [apply t_dom; exact Hp|lia]|lia].
  Qed.

  (** fd and ld are in the list already *)
  Lemma first_in : exists r, In r R /\ sin d (parent d (uq d dom f)) r.
  Proof.
    pose proof (ml_pos d dom Wd Ld) as M. pose proof (size_pos d l Wl) as Sl. destruct R_okl as ((RA & RB & _) & _).
    destruct (t_at (qpos d f) ltac:(lia)) as (p & Hp & P1). pose proof (t_wf p Hp) as Wp. pose proof (t_in p Hp) as P2. pose proof (TM p Hp) as Mp.
    destruct (uq_spec d dom Wd Ld f Wf Lf If) as (Wu & Lu & Pu & Qu & _). destruct (fdq_spec d dom Wd Ld f Wf Lf If) as (Wfd & Mfd & Ifd & Pfd & Tfd). set (fd := fdq d dom f) in *. rewrite Pu.
    pose proof (size_pos d fd Wfd) as Sfd. destruct (parent_wf d fd Wfd ltac:(lia)) as (Wpf & Lpf & _).
    assert (LE : ql fd <= ql p).
    { destruct (Z_le_dec (ql fd) (ql p)) as [X|X]; [exact X|exfalso]. assert (I : inn p fd) by (apply (nested_pt d p fd (qpos d f)); auto; lia). pose proof (inn_parent d p fd Wp Wfd I ltac:(lia)) as J. pose proof (parent_inn d fd Wfd ltac:(lia)).
      destruct Tfd as [Y|Y]; [lia|]. apply Y. apply (parent_first d fd Wfd); lia. }
    assert (I : inn fd p) by (apply (nested_pt d fd p (qpos d f)); auto; lia). pose proof (parent_inn d fd Wfd ltac:(lia)) as J0.
    assert (I2 : inn (parent d fd) (parent d p)) by (apply inn_parent; auto; lia).
    destruct (RB p Hp) as (r & Hr & Ir). exists r. split; [exact Hr|]. destruct (RA r Hr) as (p' & Hp' & ->). pose proof (t_wf p' Hp') as Wp'. pose proof (TM p' Hp') as Mp'. destruct (sib0 d p' Wp' ltac:(lia)) as (Ws & Ls & Ps & Cs & Qs). rewrite Ps in Ir.
    destruct (parent_wf d p Wp ltac:(lia)) as (Wpp & Lpp & _). destruct (parent_wf d p' Wp' ltac:(lia)) as (Wpp' & Lpp' & _). pose proof (inn_level d _ _ Wpp Wpp' Ir). pose proof (parent_inn d _ Ws ltac:(lia)) as JS. rewrite Ps in JS. split; lia.
  Qed.
  Lemma last_in : exists r, In r R /\ sin d (parent d (vq d dom l)) r.
  Proof.
    pose proof (ml_pos d dom Wd Ld) as M. pose proof (size_pos d l Wl) as Sl. destruct R_okl as ((RA & RB & _) & _).
    destruct (t_at (qend d l - 1) ltac:(lia)) as (p & Hp & P1). pose proof (t_wf p Hp) as Wp. pose proof (t_in p Hp) as P2. pose proof (TM p Hp) as Mp.
    destruct (vq_spec d dom Wd Ld l Wl Ll Il) as (Wu & Lu & Pu & Qu & _). destruct (ldq_spec d dom Wd Ld l Wl Ll Il) as (Wfd & Mfd & Ifd & Pfd & Tfd). set (fd := ldq d dom l) in *. rewrite Pu.
    pose proof (size_pos d fd Wfd) as Sfd. destruct (parent_wf d fd Wfd ltac:(lia)) as (Wpf & Lpf & _).
    assert (LE : ql fd <= ql p).
    { destruct (Z_le_dec (ql fd) (ql p)) as [X|X]; [exact X|exfalso]. assert (I : inn p fd) by (apply (nested_pt d p fd (qend d l - 1)); auto; lia). pose proof (inn_parent d p fd Wp Wfd I ltac:(lia)) as J. pose proof (parent_inn d fd Wfd ltac:(lia)).
      destruct Tfd as [Y|Y]; [lia|]. apply Y. apply (parent_last d fd Wfd); lia. }
    assert (I : inn fd p) by (apply (nested_pt d fd p (qend d l - 1)); auto; lia). pose proof (parent_inn d fd Wfd ltac:(lia)) as J0.
    assert (I2 : inn (parent d fd) (parent d p)) by (apply inn_parent; auto; lia).
    destruct (RB p Hp) as (r & Hr & Ir). exists r. split; [exact Hr|]. destruct (RA r Hr) as (p' & Hp' & ->). pose proof (t_wf p' Hp') as Wp'. pose proof (TM p' Hp') as Mp'. destruct (sib0 d p' Wp' ltac:(lia)) as (Ws & Ls & Ps & Cs & Qs). rewrite Ps in Ir.
    destruct (parent_wf d p Wp ltac:(lia)) as (Wpp & Lpp & _). destruct (parent_wf d p' Wp' ltac:(lia)) as (Wpp' & Lpp' & _). pose proof (inn_level d _ _ Wpp Wpp' Ir). pose proof (parent_inn d _ Ws ltac:(lia)) as JS. rewrite Ps in JS. split; lia.
  Qed.

  Lemma merge_levels_in fd out : forall n a r, In r (merge_levels d n a (Some f) (Some l) fd out) <->
    exists m fl, a <= m < a + Z.of_nat n /\ In (r, fl) (out m) /\ ~ compare d r fd < 0 /\ ~ compare d r l > 0 /\ fl <> PRECLUDED.
  Proof.
    induction n as [|n IH]; intros a r; cbn [merge_levels].
    - split; [intros []|intros (m & fl & H & _); lia].
    - rewrite in_app_iff, IH. unfold kept. rewrite in_map_iff. split.
      + intros [((r', fl) & E & H)|(m & fl & H & H2)].
        * cbn [fst] in E. subst r'. apply filter_In in H. destruct H as (H & C). cbn [fst snd] in C. exists a, fl. split; [lia|]. split; [exact H|]. lia.
        * exists m, fl. split; [lia|exact H2].
      + intros (m & fl & H & HO & C1 & C2 & C3). destruct (Z.eq_dec m a) as [->|N].
        * left. exists (r, fl). split; [reflexivity|]. apply filter_In. split; [exact HO|]. cbn [fst snd]. lia.
        * right. exists m, fl. split; [lia|auto].
  Qed.

  (** the list after the balance: [inner n] says that n must have children *)
  Lemma phase_list : exists L inner, balance_phase d bsearch dom (bound_of d k) (maxlevel_of dom R) R (fdq d dom f) (Some f) (Some l) = Some L /\
    okl d dom l L /\ closed d k dom inner /\ (forall p, In p tq -> inner (parent d p)) /\
    (forall n, inner n -> forall C, closed d k dom C -> (forall p, In p tq -> C (parent d p)) -> C n) /\
    (forall q, In q L -> exists n, q = rep n /\ inner n /\ ql n < 29) /\
    (forall x, inner x -> qpos d f <= qpos d x -> qend d x <= qend d l -> exists q, In q L /\ inn x q /\ ql x < ql q).
  Proof.
    pose proof (ml_pos d dom Wd Ld) as M. pose proof (size_pos d l Wl) as Sl. destruct R_okl as ((RA & RB & RC) & RO & RN).
    destruct (fdq_spec d dom Wd Ld f Wf Lf If) as (Wfd & Mfd & Ifd & Pfd & Tfd). set (fd := fdq d dom f) in *.
    destruct (phase_ok d bsearch BS dom Wd k Hk R R_reps RC (maxlevel_of dom R)) as (st & E & G & OL & DONE).
    { intros r Hr. unfold maxlevel_of. apply (maxlevel_ge R). exact Hr. }
    unfold balance_phase. rewrite E. set (il := map fst (filter (fun x : bq => Z.land (snd x) PRECLUDED =? 0) (b_in st))). set (n0 := Z.to_nat (maxlevel_of dom R - (ml + 1))) in *.
    set (add := merge_levels d n0 (ml + 1) (Some f) (Some l) fd (b_out st)).
    set (L := match add with [] => il | _ => sort d (il ++ add) end). exists L, (Sf d dom R st). split; [reflexivity|].
    assert (IL : forall r, In r il <-> exists fl, In (r, fl) (b_in st) /\ Z.land fl PRECLUDED = 0).
    { intros r. unfold il. rewrite in_map_iff. split.
      - intros ((r', fl) & X & H). cbn [fst] in X. subst r'. apply filter_In in H. cbn [snd] in H. exists fl. split; [apply H|lia].
      - intros (fl & H & Z0). exists (r, fl). split; [reflexivity|]. apply filter_In. split; [exact H|]. cbn [snd]. lia. }
    assert (LIN : forall r, In r L <-> In r il \/ In r add).
    { intros r. unfold L. destruct add as [|x y]; [cbn; intuition|]. rewrite sort_in, in_app_iff. reflexivity. }
    pose proof G as (EI & G2 & G3).
    assert (IR : forall r fl, In (r, fl) (b_in st) -> In r R). { intros r fl H. rewrite <- EI. apply in_map_iff. exists (r, fl). auto. }
    assert (ADD : forall r, In r add -> exists n m fl, r = rep n /\ In (rep n, fl) (b_out st m) /\ ~ compare d r l > 0 /\ wf d n /\ inn dom n /\ ql dom < ql n < 29).
    { intros r H. unfold add in H. apply merge_levels_in in H. destruct H as (m & fl & _ & HO & _ & C2 & _). destruct (G2 m r fl HO) as (n & -> & A1 & A2 & _ & A4 & _). exists n, m, fl. auto 8. }
    assert (OKQ : forall q, In q L -> wf d q /\ inn dom q /\ ml <= ql q /\ qpos d q < qend d l).
    { intros q Hq. apply LIN in Hq. destruct Hq as [Hq|Hq].
      - apply IL in Hq. destruct Hq as (fl & H & _). apply RO. apply (IR q fl H).
      - destruct (ADD q Hq) as (n & m & fl & -> & HO & C2 & Wn & In' & Ln). destruct (rep_spec d n Wn ltac:(lia)) as (Wr & Lr & Pr & _ & J1 & J2). split; [exact Wr|]. split; [lia|]. split; [unfold minlevel; lia|].
        pose proof (compare_gt d (rep n) l Wr Wl) as CG. assert (LE : le d (rep n) l). { unfold le in *. destruct (Z_lt_dec (qpos d (rep n)) (qpos d l)); [left; lia|]. right. lia. } unfold le in LE. lia. }
    split.
    { split; [|exact OKQ]. unfold L. destruct add as [|x y] eqn:EA; [|apply sort_ss; apply Forall_forall; intros q Hq; apply OKQ; unfold L; apply sort_in; exact Hq].
      unfold il. apply map_filter_ss. rewrite EI. apply RO. }
    split; [apply (Sf_closed d dom Wd k Hk R R_reps st G DONE)|].
    assert (BASE : forall p, In p tq -> Sf d dom R st (parent d p)).
    { intros p Hp. pose proof (t_wf p Hp) as Wp. pose proof (TM p Hp) as Mp. destruct (parent_wf d p Wp ltac:(lia)) as (Wpp & Lpp & _). split; [exact Wpp|]. split; [apply inn_parent; auto; [apply t_dom; exact Hp|unfold minlevel in *; lia]|].
      destruct (RB p Hp) as (r & Hr & Ir). destruct (R_reps r Hr) as (n & -> & Wn & In' & Ln). destruct (rep_spec d n Wn Ln) as (_ & _ & _ & PA & _). rewrite PA in Ir. exists n. split; [left; exact Hr|exact Ir]. }
    split; [exact BASE|]. split.
    { intros n Hn C CL CB. apply (Sf_must d dom k R st G n Hn C CL). intros m Hm. destruct (RA _ Hm) as (p & Hp & EP). specialize (CB p Hp).
      rewrite sibling0_rep in EP by (first [apply t_wf; exact Hp|pose proof (TM p Hp); lia]). apply rep_inj in EP. rewrite EP. exact CB. }
    split.
    { intros q Hq. apply LIN in Hq. destruct Hq as [Hq|Hq].
      - apply IL in Hq. destruct Hq as (fl & H & _). pose proof (IR q fl H) as HR. destruct (R_reps q HR) as (n & -> & Wn & In' & Ln). exists n. split; [reflexivity|]. split; [|exact Ln]. split; [exact Wn|]. split; [exact In'|]. exists n. split; [left; exact HR|lia].
      - destruct (ADD q Hq) as (n & m & fl & -> & HO & C2 & Wn & In' & Ln). exists n. split; [reflexivity|]. split; [|lia]. split; [exact Wn|]. split; [exact In'|]. exists n. split; [right; exists m, fl; exact HO|lia]. }
    intros x Sx X1 X2. pose proof Sx as (Wx & Ix & m & HM & J).
    destruct (live_below d dom k R R_reps st G _ m eq_refl HM) as (n & LV & Jn).
    assert (HN : inL R n \/ exists i, inO st i n). { destruct LV as [(fl & A & _)|(i & fl & A & _)]; [left; apply (IR _ fl A)|right; exists i, fl; exact A]. }
    destruct (list_spec d dom k R R_reps st G n HN) as (Wn & In' & Ln). destruct (rep_spec d n Wn Ln) as (Wr & Lr & Pr & PA & J1 & J2). pose proof (inn_level d x n Wx Wn ltac:(lia)) as LX.
    exists (rep n). split; [|split; lia]. apply LIN. destruct LV as [(fl & A & B)|(i & fl & A & B)]; [left; apply IL; exists fl; auto|right].
    unfold add. apply merge_levels_in. exists i, fl. pose proof (OL i n (ex_intro _ fl A)) as OLi. destruct (inO_good d dom k R st i n G (ex_intro _ fl A)) as (_ & _ & Li & Di & _). split; [unfold n0; lia|]. split; [exact A|].
    pose proof (size_pos d n Wn) as Sn. pose proof (size_pos d _ Wr) as Sr. split; [|split; [|exact B]].
    - intros C. apply (compare_lt d _ _ Wr Wfd) in C. destruct C as (C1 & C2). unfold le in *. assert (EQ : qpos d (rep n) = qpos d fd /\ ql (rep n) < ql fd) by lia. destruct EQ as (EQ1 & EQ2).
      assert (I : inn (rep n) fd) by (apply (nested_pt d (rep n) fd (qpos d fd)); auto; try lia; pose proof (size_pos d fd Wfd); lia). pose proof (inn_parent d _ fd Wr Wfd I ltac:(lia)) as JP. pose proof (parent_inn d fd Wfd ltac:(lia)).
      destruct Tfd as [Y|Y]; [unfold minlevel in *; lia|]. apply Y. apply (parent_first d fd Wfd); lia.
    - intros C. apply (compare_gt d _ _ Wr Wl) in C. unfold le in C. pose proof (wf_level d _ Wr). assert (NL : qpos d l < qpos d (rep n)) by lia.
      destruct (nested d (rep n) l Wr Wl ltac:(lia)) as [Y|[Y|Y]]; lia.
  Qed.

  Theorem kernel_balance : exists n, forall fuel, (n <= fuel)%nat -> exists out,
    kernel d bsearch dom fuel (bound_of d k) R (Some f) (Some l) = Some out /\
    tiles d (qpos d f) (qend d l) out /\
    (forall w, In w out -> exists p, In p tq /\ inn p w) /\
    balanced d k out /\
    (exists inner, closed d k dom inner /\ (forall p, In p tq -> inner (parent d p)) /\
       (forall n, inner n -> forall C, closed d k dom C -> (forall p, In p tq -> C (parent d p)) -> C n) /\
       forall w, In w out -> ~ inner w /\ inner (parent d w) /\ ml <= ql w) /\
    (forall a V, wf d a -> inn a dom -> tiles d (qpos d a) (qend d a) V -> balanced d k V -> (forall v p, In v V -> In p tq -> inn v p -> v = p) ->
       forall v x, In v V -> qpos d f <= x < qend d l -> qpos d v <= x < qend d v -> exists w, In w out /\ inn w v).
  Proof.
    pose proof (ml_pos d dom Wd Ld) as M. pose proof (size_pos d l Wl) as Sl. destruct R_okl as (_ & RO & RN).
    destruct (add_first_spec d dom Wd Ld f l Wf Wl Lf If FL R RO) as (R1 & E1 & _ & _ & _ & N1). rewrite (N1 first_in) in E1.
    destruct (add_last_spec d dom Wd Ld l Wl Ll Il R RO RN) as (R2 & E2 & _ & _ & _ & N2). rewrite (N2 last_in) in E2.
    destruct phase_list as (L & inner & E3 & OK & CL & BASE & LEAST & LI & DENSE).
    destruct (fill_spec d dom Wd Ld f l Wf Wl Lf Ll If Il FL L OK) as (n & Hn). exists n. intros fuel Hf. destruct (Hn fuel Hf) as (out & E4 & TI & FJ & FF). exists out.
    split. { unfold kernel. rewrite E1, E2. pose proof (bound_8 d k Hk). replace (bound_of d k >? 1) with true by lia. rewrite E3. exact E4. }
    split; [exact TI|]. rewrite Forall_forall in FJ, FF. pose proof CL as (CW & CA & CN).
    assert (OW : forall w, In w out -> wf d w) by (apply Forall_forall; eapply tiles_wf; exact TI).
    assert (OB : forall w, In w out -> qpos d f <= qpos d w /\ qend d w <= qend d l) by (intros w Hw; apply (tiles_bounds d out _ _ w TI Hw)).
    (* leaves have no children, their parents do *)
    assert (LEAF : forall w, In w out -> ~ inner w).
    { intros w Hw X. destruct (OB w Hw). destruct (DENSE w X) as (q & Hq & I & LV); [lia|lia|]. apply (FF w Hw q Hq). auto. }
    assert (OM : forall w, In w out -> ml <= ql w).
    { intros w Hw. destruct (Z_le_dec ml (ql w)) as [X|X]; [exact X|exfalso]. apply (LEAF w Hw). destruct (OB w Hw). assert (I : inn dom w) by lia. pose proof (inn_level d dom w Wd (OW w Hw) I).
      assert (E : dom = w) by (apply (inn_eq d); auto; unfold minlevel in *; lia). destruct (t_at (qpos d f) ltac:(lia)) as (p & Hp & _).
      apply (CA (parent d p)); [apply BASE; exact Hp|auto|lia|]. rewrite <- E. apply inn_parent; auto; [apply t_wf; exact Hp|apply t_dom; exact Hp|pose proof (TM p Hp); unfold minlevel in *; lia]. }
    assert (STRICT : forall x p, wf d x -> inn dom x -> In p tq -> inn x p -> ql x < ql p -> inner x).
    { intros x p Wx Ix Hp I LV. apply (CA (parent d p)); auto. apply inn_parent; auto. apply t_wf. exact Hp. }
    assert (PAR : forall w, In w out -> inner (parent d w)).
    { intros w Hw. pose proof (OW w Hw) as Ww. pose proof (OM w Hw) as Mw. pose proof (OB w Hw) as Bw. destruct (parent_wf d w Ww ltac:(lia)) as (Wp & Lp & _). pose proof (parent_inn d w Ww ltac:(lia)) as Jp. pose proof (size_pos d w Ww) as Sw.
      assert (Ip : inn dom (parent d w)) by (apply inn_parent; auto; [lia|unfold minlevel in *; lia]).
      destruct (FJ w Hw) as [Y|[Y|[Y|(q & Hq & Iq & Lq)]]].
      - assert (ED : dom = parent d w) by (apply (inn_eq d); auto; unfold minlevel in *; lia). destruct (t_at (qpos d w) ltac:(lia)) as (p & Hp & _). apply (STRICT _ p); auto; [rewrite <- ED; apply t_dom; exact Hp|pose proof (TM p Hp); lia].
      - destruct (t_at (qpos d f) ltac:(lia)) as (p & Hp & Pp). pose proof (t_in p Hp). pose proof (t_wf p Hp) as Wt. destruct (Z_lt_dec (ql (parent d w)) (ql p)) as [C|C].
        + apply (STRICT _ p); auto. apply (nested_pt d _ p (qpos d f)); auto; lia.
        + exfalso. assert (inn p (parent d w)) by (apply (nested_pt d p _ (qpos d f)); auto; lia). lia.
      - destruct (t_at (qend d l - 1) ltac:(lia)) as (p & Hp & Pp). pose proof (t_in p Hp). pose proof (t_wf p Hp) as Wt. destruct (Z_lt_dec (ql (parent d w)) (ql p)) as [C|C].
        + apply (STRICT _ p); auto. apply (nested_pt d _ p (qend d l - 1)); auto; lia.
        + exfalso. assert (inn p (parent d w)) by (apply (nested_pt d p _ (qend d l - 1)); auto; lia). lia.
      - destruct (LI q Hq) as (x & -> & IX & LX). destruct (CW x IX) as (Wx & _). destruct (rep_spec d x Wx LX) as (Wr & _ & _ & PA & _). apply (CA x); auto. rewrite <- PA. apply inn_parent; auto. }
    split; [|split; [|split; [exists inner; auto 8|]]].
    - intros w Hw. pose proof (OW w Hw) as Ww. pose proof (OB w Hw) as Bw. pose proof (size_pos d w Ww) as Sw. destruct (t_at (qpos d w) ltac:(lia)) as (p & Hp & Pp). exists p. split; [exact Hp|]. pose proof (t_wf p Hp) as Wp.
      destruct (Z_le_dec (ql p) (ql w)) as [C|C]; [apply (nested_pt d p w (qpos d w)); auto; lia|exfalso]. apply (LEAF w Hw). apply (STRICT w p); auto; [lia| |lia]. apply (nested_pt d w p (qpos d w)); auto; lia.
    - intros w1 w2 o H1 H2 OF Ws I. destruct (Z_le_dec (ql w2) (ql w1 + 1)) as [C|C]; [exact C|exfalso]. apply (LEAF w1 H1). pose proof (OW w1 H1) as W1. pose proof (OW w2 H2) as W2. pose proof (OM w1 H1) as M1. pose proof (OB w1 H1) as B1.
      assert (Ls : ql (shift w2 o) = ql w2) by (destruct o as ((a, b), c); reflexivity). pose proof (inn_parent d w1 _ W1 Ws I ltac:(lia)) as J. destruct (parent_wf d _ Ws ltac:(lia)) as (Wps & Lps & _).
      assert (SP : parent d (shift w2 o) = shift (parent d w2) (leaving d (child_id d w2) o)) by (apply shift_parent; auto; [lia|destruct o as ((a, b), c); unfold offset in OF; intuition lia]).
      destruct (leaving_cases d k (child_id d w2) o OF) as [Z0|OF'].
      + rewrite Z0, shift_zero in SP. apply (CA (parent d w2)); [apply PAR; exact H2|exact W1|lia|]. rewrite <- SP. exact J.
      + set (o' := leaving d (child_id d w2) o) in *. assert (X : inner (parent d (shift (parent d w2) o'))).
        { apply CN; [apply PAR; exact H2| |exact OF'|rewrite <- SP; exact Wps|rewrite <- SP; lia]. destruct (parent_wf d w2 W2 ltac:(lia)) as (_ & -> & _). unfold minlevel in *. lia. }
        apply (CA _ w1 X W1); [lia|]. rewrite <- SP. apply inn_parent; auto; lia.
    - intros a V Wa Ia TV BV NV v x Hv Hx Px.
      assert (VW : forall u, In u V -> wf d u) by (apply Forall_forall; eapply tiles_wf; exact TV).
      set (SV := fun q => wf d q /\ inn dom q /\ exists u, In u V /\ inn q u /\ ql q < ql u).
      assert (OVER : forall q u y, SV q -> In u V -> qpos d q <= y < qend d q -> qpos d u <= y < qend d u -> inn q u /\ ql q < ql u).
      { intros q u y (Wq & Iq & u0 & Hu0 & I0 & L0) Hu Y1 Y2. pose proof (VW u Hu) as Wu. destruct (Z_lt_dec (ql q) (ql u)) as [C|C]; [split; [apply (nested_pt d q u y); auto; lia|exact C]|exfalso].
        assert (I : inn u q) by (apply (nested_pt d u q y); auto; lia). pose proof (size_pos d u0 (VW u0 Hu0)). assert (u = u0) by (apply (tiles_same d V _ _ TV u u0 (qpos d u0)); auto; lia). subst u0. lia. }
      assert (SVC : closed d k dom SV).
      { split; [intros q (A & B & _); auto|]. split.
        - intros q q' (A & B & u & Hu & I & LV) W' I' J. split; [exact W'|]. split; [exact I'|]. exists u. split; [exact Hu|]. pose proof (inn_level d q' q W' A J). lia.
        - intros q o Sq Lq OF Ws Is. pose proof Sq as (Wq & Iq & u0 & Hu0 & I0 & L0). assert (Ls : ql (shift q o) = ql q) by (destruct o as ((aa, bb), cc); reflexivity).
          pose proof (wf_level d dom Wd) as LD0. destruct (parent_wf d _ Ws ltac:(lia)) as (Wps & Lps & _). pose proof (parent_inn d _ Ws ltac:(lia)) as Jps.
          split; [exact Wps|]. split; [apply inn_parent; auto; lia|].
          assert (OUT : forall u, In u V -> inn (shift q o) u -> exists u, In u V /\ inn (parent d (shift q o)) u /\ ql (parent d (shift q o)) < ql u).
          { intros u Hu I. exists u. split; [exact Hu|]. pose proof (inn_level d _ u Ws (VW u Hu) I). lia. }
          destruct (edge_leaf d k q o V a Wq OF Wa TV ltac:(lia)) as (u & y & Hu & Y1 & Y2 & SD).
          destruct (OVER q u y Sq Hu Y1 Y2) as (Iu & Lu). pose proof (VW u Hu) as Wu. destruct (SD Iu Ws) as (Wsu & Isu).
          assert (Lsu : ql (shift u o) = ql u) by (destruct o as ((aa, bb), cc); reflexivity). pose proof (size_pos d _ Wsu) as Ssu.
          destruct (proj1 (tiles_cover d V _ _ (qpos d (shift u o)) TV) ltac:(lia)) as (z & Hz & Pz). pose proof (VW z Hz) as Wz. apply (OUT z Hz).
          destruct (Z_le_dec (ql z) (ql u)) as [C|C].
          + assert (I : inn z (shift u o)) by (apply (nested_pt d z _ (qpos d (shift u o))); auto; lia). pose proof (BV z u o Hz Hu OF Wsu I) as BB. apply (nested_pt d _ z (qpos d (shift u o))); auto; lia.
          + assert (I : inn (shift u o) z) by (apply (nested_pt d _ z (qpos d (shift u o))); auto; lia). lia. }
      assert (SVB : forall p, In p tq -> SV (parent d p)).
      { intros p Hp. pose proof (t_wf p Hp) as Wp. pose proof (TM p Hp) as Mp. pose proof (t_dom p Hp) as Ip. destruct (CW _ (BASE p Hp)) as (Wpp & Ipp). split; [exact Wpp|]. split; [exact Ipp|]. pose proof (size_pos d p Wp) as Sp.
        destruct (proj1 (tiles_cover d V _ _ (qpos d p) TV) ltac:(lia)) as (u & Hu & Pu). pose proof (VW u Hu) as Wu. exists u. split; [exact Hu|]. destruct (parent_wf d p Wp ltac:(lia)) as (_ & Lpp & _). pose proof (parent_inn d p Wp ltac:(lia)).
        assert (LE : ql p <= ql u).
        { destruct (Z_le_dec (ql p) (ql u)) as [C|C]; [exact C|exfalso]. assert (I : inn u p) by (apply (nested_pt d u p (qpos d p)); auto; lia). rewrite (NV u p Hu Hp I) in C. lia. }
        assert (I : inn p u) by (apply (nested_pt d p u (qpos d p)); auto; lia). lia. }
      destruct (proj1 (tiles_cover d out _ _ x TI) ltac:(lia)) as (w & Hw & Pw). exists w. split; [exact Hw|]. pose proof (OW w Hw) as Ww. pose proof (VW v Hv) as Wv.
      destruct (Z_le_dec (ql w) (ql v)) as [C|C]; [apply (nested_pt d w v x); auto; lia|exfalso].
      assert (I : inn v w) by (apply (nested_pt d v w x); auto; lia). pose proof (inn_parent d v w Wv Ww I ltac:(lia)) as J. pose proof (OM w Hw) as Mw. destruct (parent_wf d w Ww ltac:(lia)) as (_ & Lpw & _). pose proof (parent_inn d w Ww ltac:(lia)).
      destruct (OVER (parent d w) v x (LEAST _ (PAR w Hw) SV SVC SVB) Hv ltac:(lia) Px) as (_ & X). lia.
  Qed.
End K.
