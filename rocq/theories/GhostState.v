(** * The mirrors and send buffers while one leaf is examined *)

From Coq Require Import ZArith List Bool Lia ZifyBool.
From Verif Require Import Quad Conn Partition PartLemmas Comm Ghost.
Import ListNotations.
Open Scope Z_scope.

Fixpoint sumlen {A} (l : list (list A)) : Z := match l with [] => 0 | x :: l' => zlen x + sumlen l' end.
Definition memb (p : Z) (S : list Z) : bool := existsb (Z.eqb p) S.
Definition one {A} (b : bool) (x : A) : list A := if b then [x] else [].

Lemma memb_in p S : memb p S = true <-> In p S.
Proof. unfold memb. rewrite existsb_exists. split; [intros (x & I & E); replace p with x by lia; exact I|intros I; exists p; split; [exact I|lia]]. Qed.
Lemma memb_app p S S' : memb p (S ++ S') = memb p S || memb p S'.
Proof. apply existsb_app. Qed.

Lemma set_nth_len {A} (l : list A) i v : length (set_nth l i v) = length l.
Proof. revert i. induction l as [|x l IH]; intros [|i]; cbn; auto. Qed.
Lemma set_nth_same {A} (l : list A) i v : (i < length l)%nat -> nth_error (set_nth l i v) i = Some v.
Proof. revert i. induction l as [|x l IH]; intros [|i] H; cbn in *; try lia; [reflexivity|]. apply IH. lia. Qed.
Lemma set_nth_other {A} (l : list A) i j v : i <> j -> nth_error (set_nth l i v) j = nth_error l j.
Proof. revert i j. induction l as [|x l IH]; intros [|i] [|j] H; cbn; try reflexivity; [congruence|]. apply IH. congruence. Qed.
Lemma set_nth_sum {A} (l : list (list A)) i b v : nth_error l i = Some b -> sumlen (set_nth l i (b ++ [v])) = sumlen l + 1.
Proof.
  revert i. induction l as [|x l IH]; intros [|i] H; cbn in *; try discriminate.
  - injection H as ->. unfold zlen. rewrite app_length. cbn [length]. lia.
  - rewrite (IH i H). lia.
Qed.
Lemma zget_set {A} (l : list A) p p' v : 0 <= p < zlen l -> 0 <= p' -> zget (set_nth l (Z.to_nat p) v) p' = if p =? p' then Some v else zget l p'.
Proof.
  intros H H'. rewrite !zget_nth by lia. destruct (p =? p') eqn:E.
  - replace p' with p by lia. apply set_nth_same. unfold zlen in H. lia.
  - apply set_nth_other. lia.
Qed.

Section St.
  Variables (d : dim) (P rank t num : Z) (q : quad) (m0 : mir).
  Let g := mkgq t num q.
  Definition good : Prop := zlen (m_bufs m0) = P /\ zlen (m_offs m0) = P /\ m_sum m0 = sumlen (m_bufs m0) /\
    forall p buf x, zget (m_bufs m0) p = Some buf -> In x buf -> (t =? g_t x) && is_equal d q (g_q x) = false.
  Hypothesis Hm : good.

  Definition some (S : list Z) : bool := match S with [] => false | _ => true end.
  Definition st (S : list Z) (m : mir) : Prop :=
    m_known m = some S /\ m_mirrors m = m_mirrors m0 ++ one (some S) g /\
    zlen (m_bufs m) = P /\ zlen (m_offs m) = P /\ m_sum m = sumlen (m_bufs m) /\
    (forall p, In p S -> 0 <= p < P) /\
    forall p b o, 0 <= p < P -> zget (m_bufs m0) p = Some b -> zget (m_offs m0) p = Some o ->
      zget (m_bufs m) p = Some (b ++ one (memb p S) g) /\ zget (m_offs m) p = Some (o ++ one (memb p S) (zlen (m_mirrors m0))).

  Lemma st_init : st [] (mkmir false (m_mirrors m0) (m_bufs m0) (m_offs m0) (m_sum m0)).
  Proof.
    destruct Hm as (A & B & C & _). split; [reflexivity|]. cbn [some one m_mirrors m_bufs m_offs m_sum]. rewrite app_nil_r.
    split; [reflexivity|]. split; [exact A|]. split; [exact B|]. split; [exact C|]. split; [intros p []|].
    intros p b o Hp -> ->. cbn [memb existsb one]. rewrite !app_nil_r. auto.
  Qed.

  Definition adds (f : mir -> option mir) (Q : Z -> Prop) : Prop :=
    forall m S, st S m -> exists m' S', f m = Some m' /\ st (S' ++ S) m' /\ forall p, In p S' <-> Q p.

  Lemma adds_ext f Q Q' : (forall p, Q p <-> Q' p) -> adds f Q -> adds f Q'.
  Proof. intros E A m S H. destruct (A m S H) as (m' & S' & E1 & E2 & E3). exists m', S'. split; [exact E1|]. split; [exact E2|]. intros p. rewrite E3. apply E. Qed.

  Lemma adds_none Q : (forall p, ~ Q p) -> adds (fun m => Some m) Q.
  Proof. intros N m S H. exists m, []. split; [reflexivity|]. split; [exact H|]. intros p. split; [intros []|intros X; destruct (N p X)]. Qed.

  Lemma adds_then f h Q Q' : adds f Q -> adds h Q' ->
    adds (fun m => match f m with None => None | Some m' => h m' end) (fun p => Q p \/ Q' p).
  Proof.
    intros A B m S H. destruct (A m S H) as (m1 & S1 & E1 & H1 & I1). rewrite E1. destruct (B m1 _ H1) as (m2 & S2 & E2 & H2 & I2).
    exists m2, (S2 ++ S1). split; [exact E2|]. split; [rewrite <- app_assoc; exact H2|]. intros p. rewrite in_app_iff, I1, I2. tauto.
  Qed.

  Lemma adds_each {B} (f : mir -> B -> option mir) (Q : B -> Z -> Prop) l : (forall x, In x l -> adds (fun m => f m x) (Q x)) ->
    adds (fun m => each_tree f l m) (fun p => exists x, In x l /\ Q x p).
  Proof.
    induction l as [|x l IH]; intros H.
    - apply adds_none. intros p (x & [] & _).
    - cbn [each_tree]. eapply adds_ext; [|apply adds_then; [apply H; left; reflexivity|apply IH; intros y Hy; apply H; right; exact Hy]].
      intros p. cbn beta. split.
      + intros [K|(y & Iy & K)]; [exists x|exists y]; (split; [cbn; auto|exact K]).
      + intros (y & [<-|Iy] & K); [left; exact K|right; exists y; auto].
  Qed.

  Lemma adds_one p : 0 <= p < P -> adds (fun m => mirror_add d m t num q p) (fun p' => p' = p).
  Proof.
    intros Hp m S (K & M & LB & LO & SM & IS & EV). destruct Hm as (LB0 & LO0 & SM0 & FR).
    assert (GET : forall A (l : list A), zlen l = P -> exists b, zget l p = Some b).
    { intros A l L. rewrite zget_nth by lia. destruct (nth_error l (Z.to_nat p)) as [b|] eqn:E; [exists b; reflexivity|].
      apply nth_error_None in E. unfold zlen in L. lia. }
    destruct (GET _ _ LB0) as (b & Eb). destruct (GET _ _ LO0) as (o & Eo). destruct (EV p b o Hp Eb Eo) as (EB & EO).
    set (m1 := if m_known m then m else mkmir true (m_mirrors m ++ [mkgq t num q]) (m_bufs m) (m_offs m) (m_sum m)).
    assert (M1 : m_known m1 = true /\ m_mirrors m1 = m_mirrors m0 ++ [g] /\ m_bufs m1 = m_bufs m /\ m_offs m1 = m_offs m /\ m_sum m1 = m_sum m).
    { unfold m1. destruct (m_known m) eqn:EK.
      - rewrite M, <- K. auto.
      - cbn [m_known m_mirrors m_bufs m_offs m_sum]. rewrite M, <- K. cbn [one]. rewrite app_nil_r. auto. }
    destruct M1 as (K1 & M1 & B1 & O1 & S1).
    assert (AG : add_ghost_to_buf d (b ++ one (memb p S) g) t num q = if memb p S then None else Some (b ++ [g])).
    { unfold add_ghost_to_buf. destruct (memb p S) eqn:EM; cbn [one].
      - rewrite rev_app_distr. cbn [rev app]. fold g. replace (g_t g) with t by reflexivity. replace (g_q g) with q by reflexivity.
        replace ((t =? t) && is_equal d q q) with true; [reflexivity|]. unfold is_equal. rewrite !Z.eqb_refl. destruct d; reflexivity.
      - rewrite app_nil_r. destruct (rev b) as [|x rb] eqn:ER; [reflexivity|].
        rewrite (FR p b x Eb) by (apply in_rev; rewrite ER; left; reflexivity). reflexivity. }
    unfold mirror_add. fold m1. rewrite B1, O1, EB, EO, AG.
    assert (IN : forall p', In p' ([p] ++ S) -> 0 <= p' < P) by (intros p' [<-|I]; [exact Hp|apply IS; exact I]).
    destruct (memb p S) eqn:EM.
    - exists m1, [p]. split; [reflexivity|]. split; [|intros p'; cbn [In]; split; [intros [->|[]]; reflexivity|intros ->; left; reflexivity]].
      split; [exact K1|]. split; [exact M1|]. rewrite B1, O1, S1. split; [exact LB|]. split; [exact LO|]. split; [exact SM|]. split; [exact IN|].
      intros p' b' o' Hp' Eb' Eo'. rewrite memb_app. replace (memb p' [p] || memb p' S) with (memb p' S); [apply EV; auto|].
      cbn [memb existsb]. destruct (p' =? p) eqn:EP; [|reflexivity]. replace p' with p by lia. exact EM.
    - eexists _, [p]. split; [reflexivity|]. split; [|intros p'; cbn [In]; split; [intros [->|[]]; reflexivity|intros ->; left; reflexivity]].
      unfold st. cbn [m_known m_mirrors m_bufs m_offs m_sum]. split; [exact K1|]. split; [exact M1|].
      split; [unfold zlen in *; rewrite set_nth_len; lia|]. split; [unfold zlen in *; rewrite set_nth_len; lia|].
      split. { rewrite zget_nth in EB by lia. cbn [one] in EB. rewrite app_nil_r in EB. rewrite (set_nth_sum _ _ b g EB), S1, SM. lia. }
      split; [exact IN|].
      intros p' b' o' Hp' Eb' Eo'. rewrite !zget_set by lia. rewrite memb_app. cbn [memb existsb]. fold (memb p' S).
      destruct (p =? p') eqn:EP.
      + assert (p' = p) by lia. subst p'. rewrite Eb in Eb'. rewrite Eo in Eo'. injection Eb' as <-. injection Eo' as <-.
        rewrite Z.eqb_refl. cbn [orb one]. split; [reflexivity|]. rewrite app_nil_r, M1. do 3 f_equal.
        unfold zlen. rewrite app_length. cbn [length]. lia.
      + replace (p' =? p) with false by lia. cbn [orb]. apply EV; auto.
  Qed.

  Lemma adds_other p : 0 <= p < P -> adds (fun m => add_other d rank m t num q p) (fun p' => p' = p /\ p' <> rank).
  Proof.
    intros Hp. unfold add_other. destruct (p =? rank) eqn:E.
    - apply adds_none. intros p'. lia.
    - eapply adds_ext; [|apply adds_one; exact Hp]. intros p'. cbn beta. lia.
  Qed.
End St.
