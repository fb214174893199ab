(** * The loop over the local leaves in the construction of the ghost layer *)

From Coq Require Import ZArith List Bool Lia ZifyBool.
From Verif Require Import Quad Spec Morton ZBits Interval QuadLemmas CompareLemmas DescLemmas SearchLocal Neighbor
  Conn ConnLemmas Partition PartLemmas Comm OwnerLemmas Ghost GhostSpec GhostState GhostQuad.
Import ListNotations.
Open Scope Z_scope.

(** l' are the elements of l with the property Q, in the same order *)
Inductive selects {A} (Q : A -> Prop) : list A -> list A -> Prop :=
| sel_nil : selects Q [] []
| sel_yes x l l' : Q x -> selects Q l l' -> selects Q (x :: l) (x :: l')
| sel_no x l l' : ~ Q x -> selects Q l l' -> selects Q (x :: l) l'.

Lemma selects_app {A} (Q : A -> Prop) l1 l1' l2 l2' : selects Q l1 l1' -> selects Q l2 l2' -> selects Q (l1 ++ l2) (l1' ++ l2').
Proof. intros H1 H2. induction H1; cbn [app]; [exact H2|constructor 2; auto|constructor 3; auto]. Qed.
Lemma selects_in {A} (Q : A -> Prop) l l' : selects Q l l' -> forall x, In x l' <-> In x l /\ Q x.
Proof.
  induction 1 as [|x l l' HQ H IH|x l l' HQ H IH]; intros y; cbn [In].
  - tauto.
  - rewrite IH. split; [intros [<-|K]; tauto|intros ([<-|K] & K2); tauto].
  - rewrite IH. split; [tauto|]. intros ([<-|K] & K2); tauto.
Qed.
Lemma selects_one {A} (Q : A -> Prop) x b : (b = true <-> Q x) -> selects Q [x] (one b x).
Proof. intros H. destruct b; cbn [one]; constructor; try constructor; [apply H; reflexivity|intros K; apply H in K; discriminate]. Qed.
Lemma selects_ext {A} (Q Q' : A -> Prop) l l' : (forall x, In x l -> (Q x <-> Q' x)) -> selects Q l l' -> selects Q' l l'.
Proof.
  intros E H. induction H as [|x l l' HQ H IH|x l l' HQ H IH]; [constructor|constructor 2|constructor 3].
  - apply E; [left; reflexivity|exact HQ].
  - apply IH. intros y Hy. apply E. right. exact Hy.
  - intros K. apply HQ. apply E; [left; reflexivity|exact K].
  - apply IH. intros y Hy. apply E. right. exact Hy.
Qed.

Lemma zget_app_l {A} (l l' : list A) i x : zget l i = Some x -> zget (l ++ l') i = Some x.
Proof.
  intros H. assert (0 <= i) by (unfold zget in H; destruct (i <? 0) eqn:C; [discriminate|lia]). rewrite zget_nth in * by lia.
  rewrite nth_error_app1; [exact H|]. apply nth_error_Some. congruence.
Qed.
Lemma zget_last {A} (l : list A) x : zget (l ++ [x]) (zlen l) = Some x.
Proof. rewrite zget_nth by (unfold zlen; lia). unfold zlen. rewrite Nat2Z.id, nth_error_app2, Nat.sub_diag by lia. reflexivity. Qed.

Lemma nodup_app_l {A} (l l' : list A) : NoDup (l ++ l') -> NoDup l.
Proof. induction l as [|x l IH]; intros H; [constructor|]. cbn [app] in H. inversion H; subst. constructor; [intros I; apply H2; apply in_or_app; left; exact I|auto]. Qed.

(** the leaves of a tree with their local numbers *)
Fixpoint number (t num : Z) (qs : list quad) : list gq :=
  match qs with [] => [] | q :: qs' => mkgq t num q :: number t (num + 1) qs' end.
Fixpoint numbered (trees : Z -> list quad) (n : nat) (t num : Z) : list gq :=
  match n with O => [] | S n' => number t num (trees t) ++ numbered trees n' (t + 1) (num + zlen (trees t)) end.

Lemma in_number t qs : forall num g, In g (number t num qs) -> g_t g = t /\ In (g_q g) qs.
Proof.
  induction qs as [|q qs IH]; intros num g; cbn [number In]; [tauto|]. intros [<-|H]; [cbn; auto|]. destruct (IH _ _ H). auto.
Qed.
Lemma in_numbered trees n : forall t num g, In g (numbered trees n t num) -> t <= g_t g < t + Z.of_nat n /\ In (g_q g) (trees (g_t g)).
Proof.
  induction n as [|n IH]; intros t num g; cbn [numbered]; [intros []|]. rewrite in_app_iff. intros [H|H].
  - apply in_number in H. destruct H as (-> & H). split; [lia|exact H].
  - apply IH in H. destruct H as (R & H). split; [lia|exact H].
Qed.

Definition gkey (g : gq) : Z * quad := (g_t g, g_q g).

Section Loop.
  Variables (d : dim) (c : conn) (gfp : list marker) (P rank first last : Z) (bt : ctype) (trees : Z -> list quad).
  Let T := c_nt c.
  Hypothesis HP : 1 <= P.
  Hypothesis Hlen : zlen gfp = P + 1.
  Hypothesis Hwf : forall p m, zget gfp p = Some m -> wf d (g_quad m) /\ ql (g_quad m) = 29.
  Hypothesis Hin : Forall (fun m => qin d (g_quad m)) gfp.
  Hypothesis Hmono : forall p, 0 <= p < P -> mp d gfp p <= mp d gfp (p + 1).
  Hypothesis Hbeg : mp d gfp 0 = 0.
  Hypothesis Hend : mp d gfp P = T * TREE d.
  Hypothesis Hone : forall p, 0 <= p < P -> mp d gfp (p + 1) <> mp d gfp p + psize d 29.
  Hypothesis Hrank : 0 <= rank < P.
  Hypothesis V : conn_is_valid d c = Some true.
  Hypothesis PE : 0 <= c_ne c.
  Hypothesis PC : 0 <= c_nc c.
  Hypothesis HJ : bt = CFace \/ joined d c.
  Hypothesis Hfirst : first <= last -> mp d gfp rank < (first + 1) * TREE d.
  Hypothesis Hlast : first <= last -> last * TREE d <= mp d gfp (rank + 1).
  Hypothesis Htrees : first <= last -> 0 <= first /\ last < T.
  Hypothesis Hleaf : forall t q, first <= t <= last -> In q (trees t) -> wf d q /\ owns d gfp rank t q.

  Definition sends (p : Z) (g : gq) : Prop := sent_to d c gfp P rank (g_t g) (g_q g) bt p.

  Definition inv (D : list gq) (m : mir) : Prop :=
    zlen (m_bufs m) = P /\ zlen (m_offs m) = P /\ m_sum m = sumlen (m_bufs m) /\
    selects (fun g => exists p, sends p g) D (m_mirrors m) /\
    forall p, 0 <= p < P -> exists b o, zget (m_bufs m) p = Some b /\ zget (m_offs m) p = Some o /\
      selects (sends p) D b /\ Forall2 (fun i g => zget (m_mirrors m) i = Some g) o b.

  Lemma sumlen_nil {A} n : sumlen (repeat (@nil A) n) = 0.
  Proof. induction n; cbn [repeat sumlen]; [reflexivity|]. rewrite IHn. reflexivity. Qed.
  Lemma inv_init : inv [] (mirror_init P).
  Proof.
    unfold inv, mirror_init. cbn [m_bufs m_offs m_mirrors m_sum]. unfold zlen. rewrite !repeat_length. split; [lia|]. split; [lia|].
    split; [rewrite sumlen_nil; reflexivity|]. split; [constructor|]. intros p Hp. exists [], [].
    assert (G : forall A, zget (repeat (@nil A) (Z.to_nat P)) p = Some []).
    { intros A. rewrite zget_nth by lia. apply nth_error_repeat. lia. }
    rewrite !G. split; [reflexivity|]. split; [reflexivity|]. split; constructor.
  Qed.

  Lemma inv_step D m t num q info : inv D m -> first <= t <= last -> In q (trees t) ->
    (forall g, In g D -> wf d (g_q g) /\ gkey g <> (t, q)) -> tree_info d c gfp rank first last t = Some info ->
    exists m' X, ghost_quad d c gfp P rank bt info t num q m = Some m' /\ inv (D ++ [mkgq t num q]) m' /\
      m_mirrors m' = m_mirrors m ++ X /\ incl X [mkgq t num q].
  Proof.
    intros (LB & LO & SM & SEL & EV) Ht Hq HD EI. destruct (Hleaf t q Ht Hq) as (Wq & Oq). destruct (Htrees ltac:(lia)) as (F0 & L1).
    assert (HT : 0 <= t < T) by lia.
    assert (GD : good d P t q m).
    { split; [exact LB|]. split; [exact LO|]. split; [exact SM|]. intros p buf x Eb Ix.
      assert (Hp : 0 <= p < P) by (rewrite <- LB; eapply zget_range; exact Eb).
      destruct (EV p Hp) as (b & o & Eb' & _ & SB & _). rewrite Eb in Eb'. injection Eb' as <-.
      apply (selects_in _ _ _ SB) in Ix. destruct Ix as (Ix & _). destruct (HD x Ix) as (Wx & NK).
      destruct ((t =? g_t x) && is_equal d q (g_q x)) eqn:E; [|reflexivity]. exfalso. apply andb_true_iff in E. destruct E as (E1 & E2).
      apply is_equal_eq in E2; [|exact Wq|exact Wx]. apply NK. unfold gkey. rewrite <- E2. f_equal. lia. }
    destruct (quad_spec d c gfp P rank t num first last q bt HP Hlen Hwf Hin Hmono Hbeg Hend Hone Hrank Wq HT V PE PC HJ (Hfirst ltac:(lia)) (Hlast ltac:(lia)) Oq info m EI GD)
      as (m' & S & EQ & (K & M & LB' & LO' & SM' & IS & EV') & IFF).
    exists m', (one (some S) (mkgq t num q)). split; [exact EQ|]. split; [|split; [exact M|destruct S; cbn [some one]; [intros x []|apply incl_refl]]].
    split; [exact LB'|]. split; [exact LO'|]. split; [exact SM'|]. split.
    - rewrite M. apply selects_app; [exact SEL|]. apply selects_one. unfold sends. cbn [g_t g_q]. split.
      + destruct S as [|p S]; [discriminate|]. intros _. exists p. apply IFF. left. reflexivity.
      + intros (p & Kp). apply IFF in Kp. destruct S; [destruct Kp|reflexivity].
    - intros p Hp. destruct (EV p Hp) as (b & o & Eb & Eo & SB & F2). destruct (EV' p b o Hp Eb Eo) as (Eb' & Eo').
      eexists _, _. split; [exact Eb'|]. split; [exact Eo'|]. split.
      + apply selects_app; [exact SB|]. apply selects_one. unfold sends. cbn [g_t g_q]. rewrite memb_in. apply IFF.
      + rewrite M. apply Forall2_app.
        * clear - F2. induction F2; constructor; auto. apply zget_app_l. assumption.
        * destruct (memb p S) eqn:EM; cbn [one]; [|constructor]. constructor; [|constructor]. apply memb_in in EM. destruct S; [destruct EM|]. cbn [some one]. apply zget_last.
  Qed.

  Lemma tree_step info t : tree_info d c gfp rank first last t = Some info -> first <= t <= last -> forall qs num D m, inv D m ->
    (forall q, In q qs -> In q (trees t)) -> Forall (fun g => wf d (g_q g)) D -> NoDup (map gkey (D ++ number t num qs)) ->
    exists m' X, ghost_tree d c gfp P rank bt info t num qs m = Some m' /\ inv (D ++ number t num qs) m' /\
      m_mirrors m' = m_mirrors m ++ X /\ incl X (number t num qs).
  Proof.
    intros EI Ht. induction qs as [|q qs IH]; intros num D m I Hq HW ND.
    - exists m, []. cbn [ghost_tree number]. rewrite !app_nil_r. split; [reflexivity|]. split; [exact I|]. split; [reflexivity|]. apply incl_refl.
    - cbn [ghost_tree number] in *. rewrite Forall_forall in HW.
      destruct (inv_step D m t num q info I Ht (Hq q (or_introl eq_refl))) as (m1 & X1 & E1 & I1 & M1 & C1); [|exact EI|].
      { intros g Hg. split; [apply HW; exact Hg|]. intros EK. rewrite map_app in ND. cbn [map] in ND. apply NoDup_remove_2 in ND. apply ND.
        apply in_or_app. left. change (gkey (mkgq t num q)) with (t, q). rewrite <- EK. apply in_map. exact Hg. }
      rewrite E1. destruct (IH (num + 1) (D ++ [mkgq t num q]) m1 I1) as (m2 & X2 & E2 & I2 & M2 & C2).
      + intros x Hx. apply Hq. right. exact Hx.
      + apply Forall_app. split; [apply Forall_forall; exact HW|]. constructor; [|constructor]. cbn [g_q]. apply (Hleaf t q Ht). apply Hq. left. reflexivity.
      + rewrite <- app_assoc. exact ND.
      + rewrite <- app_assoc in I2. exists m2, (X1 ++ X2). split; [exact E2|]. split; [exact I2|]. split; [rewrite M2, M1, app_assoc; reflexivity|].
        intros x Hx. apply in_app_or in Hx. destruct Hx as [Hx|Hx]; [apply C1 in Hx; destruct Hx as [<-|[]]; left; reflexivity|right; apply C2; exact Hx].
  Qed.

  Definition before (t : Z) (l : list gq) : Z := zlen (filter (fun g => g_t g <? t) l).
  Lemma before_all t l : Forall (fun g => g_t g < t) l -> before t l = zlen l.
  Proof. unfold before. induction 1 as [|g l H _ IH]; [reflexivity|]. cbn [filter]. replace (g_t g <? t) with true by lia. unfold zlen in *. cbn [length]. lia. Qed.
  Lemma before_none t l : Forall (fun g => t <= g_t g) l -> before t l = 0.
  Proof. unfold before. induction 1 as [|g l H _ IH]; [reflexivity|]. cbn [filter]. replace (g_t g <? t) with false by lia. exact IH. Qed.
  Lemma before_app t l l' : before t (l ++ l') = before t l + before t l'.
  Proof. unfold before. rewrite filter_app. unfold zlen. rewrite app_length. lia. Qed.

  Lemma trees_step n : forall t num D m, inv D m -> first <= t -> t + Z.of_nat n = last + 1 -> Forall (fun g => wf d (g_q g)) D -> Forall (fun g => g_t g < t) D ->
    NoDup (map gkey (D ++ numbered trees n t num)) ->
    exists m' offs X, ghost_trees d c gfp P rank bt first last trees n t num m = Some (m', offs) /\ inv (D ++ numbered trees n t num) m' /\
      m_mirrors m' = m_mirrors m ++ X /\ incl X (numbered trees n t num) /\
      length offs = n /\ forall i, (i < n)%nat -> nth_error offs i = Some (before (t + Z.of_nat i) (m_mirrors m')).
  Proof.
    induction n as [|n IH]; intros t num D m I Ht Hn HW HT ND.
    - exists m, [], []. cbn [ghost_trees numbered]. rewrite !app_nil_r. split; [reflexivity|]. split; [exact I|]. split; [reflexivity|]. split; [apply incl_refl|]. split; [reflexivity|]. lia.
    - cbn [ghost_trees numbered] in *. destruct (Htrees ltac:(lia)) as (F0 & L1).
      assert (TI : exists info, tree_info d c gfp rank first last t = Some info).
      { destruct (contacts_spec d c t V ltac:(unfold T in *; lia)) as (l & EL & _). unfold tree_info.
        destruct (mp_get d gfp P HP Hlen Hin rank ltac:(lia)) as (x & E & _). destruct (mp_get d gfp P HP Hlen Hin (rank + 1) ltac:(lia)) as (x' & E' & _).
        rewrite E, E', EL. eauto. }
      destruct TI as (info & EI). rewrite EI. rewrite app_assoc in ND.
      assert (ND1 : NoDup (map gkey (D ++ number t num (trees t)))) by (rewrite map_app in ND; exact (nodup_app_l _ _ ND)).
      destruct (tree_step info t EI ltac:(lia) (trees t) num D m I ltac:(auto) HW ND1) as (m1 & X1 & E1 & I1 & M1 & C1).
      rewrite E1. destruct (IH (t + 1) (num + zlen (trees t)) _ m1 I1 ltac:(lia) ltac:(lia)) as (m2 & offs & X2 & E2 & I2 & M2 & C2 & LN & OF); [| |exact ND|].
      + apply Forall_app. split; [exact HW|]. apply Forall_forall. intros g Hg. apply in_number in Hg. destruct Hg as (_ & Hg). apply (Hleaf t _ ltac:(lia) Hg).
      + apply Forall_app. split; [eapply Forall_impl; [|exact HT]; intros g Hg; cbn beta in *; lia|]. apply Forall_forall. intros g Hg. apply in_number in Hg. lia.
      + rewrite E2. rewrite <- app_assoc in I2. eexists m2, _, (X1 ++ X2). split; [reflexivity|]. split; [exact I2|].
        split; [rewrite M2, M1, app_assoc; reflexivity|]. split.
        { intros x Hx. apply in_or_app. apply in_app_or in Hx. destruct Hx as [Hx|Hx]; [left; apply C1|right; apply C2]; exact Hx. }
        split; [cbn [length]; lia|]. intros [|i] Hi; cbn [nth_error].
        * rewrite Z.add_0_r. f_equal. rewrite M2, M1, !before_app.
          destruct I as (_ & _ & _ & SEL & _). rewrite before_all.
          2:{ apply Forall_forall. intros g Hg. apply (selects_in _ _ _ SEL) in Hg. rewrite Forall_forall in HT. apply HT. apply Hg. }
          rewrite !before_none; [lia| |]; apply Forall_forall; intros g Hg.
          -- apply C2 in Hg. apply in_numbered in Hg. lia.
          -- apply C1 in Hg. apply in_number in Hg. lia.
        * rewrite OF by lia. do 2 f_equal. lia.
  Qed.

  Lemma send_spec : (first <= last \/ (first = -1 /\ last = -2)) -> 0 <= T ->
    NoDup (map gkey (numbered trees (Z.to_nat (last - first + 1)) first 0)) ->
    exists m mto, ghost_send d c gfp P rank bt first last trees = Some (m, mto) /\
      inv (numbered trees (Z.to_nat (last - first + 1)) first 0) m /\
      zlen mto = T + 1 /\ forall t, 0 <= t <= T -> zget mto t = Some (before t (m_mirrors m)).
  Proof.
    intros HFL HT ND. unfold ghost_send. destruct HFL as [HFL|(EF & EL)].
    - destruct (trees_step (Z.to_nat (last - first + 1)) first 0 [] (mirror_init P) inv_init ltac:(lia) ltac:(lia) ltac:(constructor) ltac:(constructor) ND)
        as (m & offs & X & E & I & M & C & LN & OF). rewrite E. cbn [app] in I. eexists m, _. split; [reflexivity|]. split; [exact I|].
      destruct (Htrees HFL) as (F0 & L1). rewrite Z.max_l by lia. fold T.
      split; [unfold zlen; rewrite !app_length, !repeat_length, LN; lia|]. intros t Ht. rewrite zget_nth by lia.
      change (m_mirrors m = X) in M. rewrite <- M in C.
      destruct (Z_lt_ge_dec t first) as [L|G].
      + rewrite nth_error_app1 by (rewrite repeat_length; lia). rewrite nth_error_repeat by lia. rewrite before_none; [reflexivity|].
        apply Forall_forall. intros g Hg. apply C in Hg. apply in_numbered in Hg. lia.
      + rewrite nth_error_app2 by (rewrite repeat_length; lia). rewrite repeat_length. destruct (Z_le_gt_dec t last) as [L|G2].
        * rewrite nth_error_app1 by lia. rewrite OF by lia. do 2 f_equal. lia.
        * rewrite nth_error_app2 by lia. rewrite nth_error_repeat by lia. rewrite before_all; [reflexivity|].
          apply Forall_forall. intros g Hg. apply C in Hg. apply in_numbered in Hg. lia.
    - rewrite EF, EL. change (Z.to_nat (-2 - -1 + 1)) with 0%nat. cbn [ghost_trees numbered]. eexists _, _. split; [reflexivity|]. split; [apply inv_init|].
      change (Z.max (-2 + 1) 0) with 0. change (Z.to_nat (-1)) with 0%nat. cbn [repeat app mirror_init m_mirrors]. rewrite Z.sub_0_r. fold T.
      split; [unfold zlen; rewrite repeat_length; lia|]. intros t Ht. rewrite zget_nth by lia. rewrite nth_error_repeat by lia. reflexivity.
  Qed.
End Loop.
