(** * Lemmas for p4est_search_reorder: the windows of the recursion and the quadrants to search *)

From Coq Require Import ZArith List Bool Lia Arith Sorting.Sorted ZifyBool FinFun.
From Verif Require Import Quad Spec Morton Interval QuadLemmas CompareLemmas DescLemmas SuccLemmas
  Tree TreeLemmas Search SearchLemmas SearchLocal Reorder ReorderSpec.
Import ListNotations.
Open Scope Z_scope.

Lemma nth_firstn {A} (l : list A) : forall n k, nth_error (firstn n l) k = if (k <? n)%nat then nth_error l k else None.
Proof. induction l as [|x l IH]; intros [|n] [|k]; cbn [firstn nth_error]; try reflexivity; [destruct (_ <? _)%nat; reflexivity|]. rewrite IH. reflexivity. Qed.
Lemma nth_skipn {A} (l : list A) : forall n k, nth_error (skipn n l) k = nth_error l (n + k).
Proof. induction l as [|x l IH]; intros [|n] k; cbn [skipn Nat.add]; try reflexivity; [destruct k; reflexivity|]. rewrite IH. reflexivity. Qed.

Section Geo.
  Variable d : dim.
  Variable L : list quad.
  Hypothesis LW : Forall (wf d) L.
  Hypothesis LS : linear d L.

  Lemma lwf x : In x L -> wf d x.
  Proof. intros I. rewrite Forall_forall in LW. apply LW. exact I. Qed.
  Lemma ss_cases {A} (R : A -> A -> Prop) l : StronglySorted R l -> forall x y, In x l -> In y l -> x = y \/ R x y \/ R y x.
  Proof.
    induction 1 as [|a l S IH F]; intros x y Hx Hy; [destruct Hx|]. rewrite Forall_forall in F. destruct Hx as [<-|Hx], Hy as [<-|Hy]; auto.
  Qed.
  Lemma leaf_same x y z : In x L -> In y L -> wf d z -> within d x z -> within d y z -> x = y.
  Proof.
    intros Ix Iy Wz A B. destruct (ss_cases _ _ LS x y Ix Iy) as [?|[K|K]]; [assumption| |]; exfalso; pose proof (size_pos d z Wz); unfold within, before in *; lia.
  Qed.
  Lemma leaf_in x y : In x L -> In y L -> within d x y -> x = y.
  Proof. intros Ix Iy A. apply (leaf_same x y y); auto; [apply lwf; exact Iy|unfold within; lia]. Qed.
  Lemma within_refl b : within d b b.
  Proof. unfold within. lia. Qed.
  Lemma within_anti a b : wf d a -> wf d b -> within d a b -> within d b a -> a = b.
  Proof. intros Wa Wb A B. apply (within_eq d); auto. pose proof (within_level d a b Wa Wb A). pose proof (within_level d b a Wb Wa B). lia. Qed.

  (** the part of the array inside of b *)
  Definition win (b : quad) (base : nat) (W : list quad) : Prop :=
    linear d W /\ (forall x, In x W <-> In x L /\ within d b x) /\ forall k x, nth_error W k = Some x -> nth_error L (base + k) = Some x.

  Lemma win_inside b base W : win b base W -> inside d b W.
  Proof. intros (_ & H & _). apply Forall_forall. intros x I. apply H in I. split; [apply lwf; tauto|tauto]. Qed.

  (** *** the children *)
  Section Split.
    Variables (b : quad) (base : nat) (W : list quad).
    Hypothesis Wb : wf d b.
    Hypothesis HW : win b base W.
    Hypothesis Lv : ql b < 29.
    Hypothesis Lx : forall x, In x W -> ql b < ql x.
    Let lo i := countb (fun x => Nat.ltb (cty d b x) i) W.
    Let hi i := countb (fun x => Nat.ltb (cty d b x) (i + 1)) W.

    Lemma sp_wf x : In x W -> wf d x /\ within d b x.
    Proof. intros I. pose proof (win_inside _ _ _ HW) as F. unfold inside in F. rewrite Forall_forall in F. apply F. exact I. Qed.
    Lemma chn : Z.of_nat (childrenn d) = children d.
    Proof. clear; destruct d; reflexivity. Qed.
    Lemma sp_ty x : In x W -> (cty d b x < childrenn d)%nat /\ within d (child d b (Z.of_nat (cty d b x))) x.
    Proof.
      intros I. destruct (sp_wf x I) as (Wx & A). destruct (anc_child d b x Wb Wx A (Lx x I)) as (R & H). unfold cty. rewrite Z2Nat.id by lia. split; [pose proof chn; lia|exact H].
    Qed.
    Lemma sp_ty_iff x i : In x W -> (i < childrenn d)%nat -> (cty d b x = i <-> within d (child d b (Z.of_nat i)) x).
    Proof.
      intros I Hi. destruct (sp_wf x I) as (Wx & A). destruct (sp_ty x I) as (R & H). pose proof chn. split; [intros <-; exact H|]. intros H'.
      pose proof (child_unique d b x (Z.of_nat (cty d b x)) (Z.of_nat i) Wb Lv Wx ltac:(lia) ltac:(lia) H H'). lia.
    Qed.
    Lemma sp_sorted : StronglySorted (fun x y => (cty d b x <= cty d b y)%nat) W.
    Proof.
      assert (G : forall M, (forall x, In x M -> In x W) -> StronglySorted (before d) M -> StronglySorted (fun x y => (cty d b x <= cty d b y)%nat) M).
      { induction M as [|x M IH]; intros Hin S; [constructor|]. inversion S as [|? ? S' F]; subst. constructor; [apply IH; auto; intros; apply Hin; right; auto|].
        rewrite Forall_forall in F. apply Forall_forall. intros y Hy. destruct (le_lt_dec (cty d b x) (cty d b y)) as [?|G]; [assumption|exfalso].
        assert (Ix : In x W) by (apply Hin; left; auto). assert (Iy : In y W) by (apply Hin; right; auto). destruct (sp_ty x Ix) as (Rx & A & B). destruct (sp_ty y Iy) as (Ry & A' & B'). pose proof chn.
        pose proof (child_order d b (Z.of_nat (cty d b y)) (Z.of_nat (cty d b x)) Wb Lv ltac:(lia) ltac:(lia)). pose proof (size_pos d x (proj1 (sp_wf x Ix))). pose proof (size_pos d y (proj1 (sp_wf y Iy))).
        specialize (F y Hy). unfold before in F. lia. }
      apply G; [auto|apply HW].
    Qed.
    Lemma sp_slice i : (i < childrenn d)%nat -> firstn (hi i - lo i) (skipn (lo i) W) = filter (fun x => Nat.eqb (cty d b x) i) W /\ (lo i <= hi i)%nat /\ (hi i - lo i = length (filter (fun x => Nat.eqb (cty d b x) i) W))%nat.
    Proof. intros _. apply (slice_type (fun x => cty d b x) i W sp_sorted). Qed.
    Lemma sp_win i : (i < childrenn d)%nat -> win (child d b (Z.of_nat i)) (base + lo i) (firstn (hi i - lo i) (skipn (lo i) W)).
    Proof.
      intros Hi. destruct (sp_slice i Hi) as (E & H1 & H2). pose proof chn. split; [rewrite E; apply SS_filter; apply HW|]. split.
      - intros x. rewrite E, filter_In, Nat.eqb_eq. split.
        + intros (I & Ec). split; [apply HW; exact I|]. apply (sp_ty_iff x i I Hi). exact Ec.
        + intros (I & A). assert (IW : In x W). { apply HW. split; [exact I|]. eapply within_trans; [apply (child_within d b (Z.of_nat i) Wb Lv); lia|exact A]. } split; [exact IW|]. apply (sp_ty_iff x i IW Hi). exact A.
      - intros k x Ek. rewrite nth_firstn in Ek. destruct (k <? hi i - lo i)%nat; [|discriminate]. rewrite nth_skipn in Ek. rewrite <- Nat.add_assoc. apply HW. exact Ek.
    Qed.
    Lemma sp_some i : (i < childrenn d)%nat -> (Nat.ltb (lo i) (hi i) = existsb (withinb d (child d b (Z.of_nat i))) L).
    Proof.
      intros Hi. destruct (sp_slice i Hi) as (E & H1 & H2). destruct (sp_win i Hi) as (_ & HI & _). rewrite E in HI. apply eq_true_iff_eq. rewrite Nat.ltb_lt, existsb_exists. split.
      - intros H. destruct (filter (fun x => Nat.eqb (cty d b x) i) W) as [|x l] eqn:EF; [cbn [length] in H2; lia|]. exists x. destruct (proj1 (HI x) (or_introl eq_refl)) as (I & A). split; [exact I|apply withinb_iff; exact A].
      - intros (x & I & A). apply withinb_iff in A. pose proof (proj2 (HI x) (conj I A)) as K. destruct (filter (fun x => Nat.eqb (cty d b x) i) W); [destruct K|]. cbn [length] in H2. lia.
    Qed.
    Lemma sp_nth i : (i <= childrenn d)%nat -> W <> [] -> nth i (split_array d W (ql b)) 0%nat = lo i.
    Proof.
      intros Hi HN. unfold split_array. destruct W as [|x W']; [congruence|].
      rewrite (nth_array_split (fun x => Z.to_nat (ancestor_id d x (ql b + 1)))) by lia. reflexivity.
    Qed.
    Lemma sp_hi i : lo (i + 1) = hi i.
    Proof. reflexivity. Qed.
    Lemma sp_kids : W <> [] -> filter (fun i => Nat.ltb (nth (Z.to_nat i) (split_array d W (ql b)) 0%nat) (nth (Z.to_nat i + 1) (split_array d W (ql b)) 0%nat)) (map Z.of_nat (seq 0 (childrenn d))) = kids d L b.
    Proof.
      intros HN. unfold kids. apply filter_ext_in. intros z I. apply in_map_iff in I. destruct I as (i & <- & I). apply in_seq in I. rewrite Nat2Z.id, !sp_nth, sp_hi by (auto; lia). apply sp_some. lia.
    Qed.
  End Split.

  (** *** the quadrants to search *)
  Variable skip : bool.
  Notation SN := (snode d skip L).

  Lemma kids_in b i : In i (kids d L b) -> 0 <= i < children d.
  Proof. unfold kids. intros H. apply filter_In in H. destruct H as (H & _). apply in_map_iff in H. destruct H as (k & <- & H). apply in_seq in H. pose proof chn. lia. Qed.
  Lemma kids_nodup b : NoDup (kids d L b).
  Proof. unfold kids. apply NoDup_filter. apply Injective_map_NoDup; [intros x y; lia|]. apply seq_NoDup. Qed.
  Lemma kids_has b i : In i (kids d L b) <-> 0 <= i < children d /\ exists x, In x L /\ within d (child d b i) x.
  Proof.
    unfold kids. rewrite filter_In, in_map_iff, existsb_exists. pose proof chn. split.
    - intros ((k & <- & H') & x & I & A). apply in_seq in H'. split; [lia|]. exists x. split; [exact I|apply withinb_iff; exact A].
    - intros (H' & x & I & A). split; [exists (Z.to_nat i); split; [lia|apply in_seq; lia]|]. exists x. split; [exact I|apply withinb_iff; exact A].
  Qed.

  (** a leaf has nothing inside *)
  Lemma sn_leaf b q : In b L -> SN q -> within d b q -> q = b.
  Proof.
    intros Ib (Wq & (x & Ix & A) & _) B. assert (x = b) by (symmetry; apply leaf_in; auto; eapply within_trans; eauto). subst x. apply within_anti; auto. apply lwf. exact Ib.
  Qed.
  (** the quadrants inside of b0 are inside of its hull *)
  Lemma sn_hull b0 b q : wf d b0 -> wf d b -> (exists x, In x L /\ within d b x) -> (forall x, In x L -> within d b0 x -> within d b x) -> skip = true -> SN q -> within d b0 q -> within d b q.
  Proof.
    intros W0 Wb (z & Iz & Az) HB HS (Wq & (x & Ix & A) & K) B. assert (BX : within d b x) by (apply HB; [exact Ix|eapply within_trans; eauto]). pose proof (lwf x Ix) as Wx.
    destruct (K HS) as [I|(_ & Lq & i & j & x1 & y1 & Hi & Hj & Nij & I1 & I2 & A1 & A2)]; [apply HB; auto|].
    assert (B1 : within d b x1) by (apply HB; [exact I1|]; eapply within_trans; [exact B|]; eapply within_trans; [apply (child_within d q i Wq Lq Hi)|exact A1]).
    assert (B2 : within d b y1) by (apply HB; [exact I2|]; eapply within_trans; [exact B|]; eapply within_trans; [apply (child_within d q j Wq Lq Hj)|exact A2]).
    pose proof (lwf _ I1) as W1. pose proof (lwf _ I2) as W2. pose proof (size_pos d _ W1). pose proof (size_pos d _ W2). pose proof (size_pos d x Wx).
    destruct (SearchLocal.nested d b q Wb Wq) as [K1|K1]; [unfold within in *; lia|unfold within in *; lia|exact K1|]. destruct (quad_dec q b) as [->|NE]; [apply within_refl|exfalso].
    pose proof (within_level d q b Wq Wb K1) as LL. destruct (Z.eq_dec (ql q) (ql b)) as [E|E]; [apply NE; apply (within_eq d); auto|]. destruct (anc_child d q b Wq Wb K1 ltac:(lia)) as (R & AB). set (k := ancestor_id d b (ql q + 1)) in *.
    apply Nij. transitivity k; [|symmetry]; [apply (child_unique d q x1)|apply (child_unique d q y1)]; auto; eapply within_trans; eauto.
  Qed.
  (** ** the step from b to its children *)
  Section Step.
    Variable b : quad.
    Hypothesis Wb : wf d b.

    Lemma sn_child q : SN q -> within d b q -> q <> b -> ql b < 29 /\ exists i, 0 <= i < children d /\ within d (child d b i) q.
    Proof.
      intros (Wq & _) A NE. pose proof (within_level d b q Wb Wq A) as LL. destruct (Z.eq_dec (ql b) (ql q)) as [E|E]; [exfalso; apply NE; symmetry; apply (within_eq d); auto|]. pose proof (wf_level d q Wq).
      destruct (anc_child d b q Wb Wq A ltac:(lia)) as (R & H'). split; [lia|]. eexists. split; [exact R|exact H'].
    Qed.
    Lemma sn_between m q i : ql b < 29 -> 0 <= i < children d -> SN m -> wf d q -> within d b m -> m <> b -> within d m q -> within d (child d b i) q -> within d (child d b i) m.
    Proof.
      intros Lb Hi Sm Wq A NE B C. destruct (sn_child m Sm A NE) as (_ & j & Hj & D). replace i with j; [exact D|]. apply (child_unique d b q); auto. eapply within_trans; eauto.
    Qed.
  End Step.
End Geo.
