(** * p4est_connectivity_complete: the groups of edges and corners *)

From Coq Require Import ZArith List Bool Lia ZifyBool Permutation.
From Verif Require Import Quad Neighbor Transform Partition Conn ConnLemmas Permute PermuteArray ConnComplete ConnCompleteArray.
Import ListNotations.
Open Scope Z_scope.

Lemma nodup_app {A} (l m : list A) : NoDup l -> NoDup m -> (forall x, In x l -> ~ In x m) -> NoDup (l ++ m).
Proof.
  intros Nl Nm Q. induction Nl as [|x l NI Nl IH]; cbn [app]; [auto|]. constructor.
  - intros I. apply in_app_or in I as [I|I]; [auto|]. apply (Q x); [left|]; auto.
  - apply IH. intros y I. apply Q. right. auto.
Qed.
Lemma nodup_groups {A B} (G : B -> list A) (key : A -> B) ks : NoDup ks -> (forall k, NoDup (G k)) -> (forall k x, In x (G k) -> key x = k) ->
  NoDup (concat (map G ks)).
Proof.
  intros N NG KG. induction N as [|k ks NI N IH]; cbn [map concat]; [constructor|]. apply nodup_app; auto.
  intros x I J. apply in_concat in J as (g & J1 & J2). apply in_map_iff in J1 as (k' & <- & J1). rewrite <- (KG _ _ I) in NI. rewrite <- (KG _ _ J2) in J1. auto.
Qed.

Lemma ofilter_in {A} (f : A -> option bool) l : forall r, ofilter f l = Some r -> forall x, In x r <-> In x l /\ f x = Some true.
Proof.
  induction l as [|y l IH]; cbn [ofilter]; intros r E x.
  - injection E as <-. cbn. tauto.
  - destruct (f y) as [b|] eqn:F; [|discriminate]. destruct (ofilter f l) as [r'|]; [|discriminate]. injection E as <-. specialize (IH r' eq_refl x).
    destruct b; cbn [In]; rewrite IH.
    + split; [intros [->|[]]; auto|intros [[->|] ]; auto].
    + split; [intros []; auto|]. intros [[->|] ]; [congruence|auto].
Qed.
Lemma ofilter_dec {A} (f : A -> option bool) l : forall r, ofilter f l = Some r -> forall x, In x l -> f x = Some true \/ f x = Some false.
Proof.
  induction l as [|y l IH]; cbn [ofilter]; intros r E x; [intros []|].
  destruct (f y) as [b|] eqn:F; [|discriminate]. destruct (ofilter f l) as [r'|]; [|discriminate]. intros [<-|I]; [destruct b; auto|eauto].
Qed.
Lemma ofilter_nodup {A} (f : list A -> option bool) l : forall r, ofilter f l = Some r -> NoDup (concat l) -> NoDup (concat r).
Proof.
  assert (G : forall l r, ofilter f l = Some r -> (forall x, In x (concat r) -> In x (concat l)) /\ (NoDup (concat l) -> NoDup (concat r))).
  { induction l0 as [|g l0 IH]; cbn [ofilter]; intros r E; [injection E as <-; auto|].
    destruct (f g) as [b|]; [|discriminate]. destruct (ofilter f l0) as [r'|]; [|discriminate]. injection E as <-. destruct (IH r' eq_refl) as (I1 & N1).
    cbn [concat]. assert (T : NoDup (g ++ concat l0) -> NoDup g /\ NoDup (concat l0) /\ forall x, In x g -> ~ In x (concat l0)).
    { clear. induction g as [|x g IH]; cbn [app]; intros N; [split; [constructor|split; [auto|intros x []]]|]. inversion_clear N. destruct (IH H0) as (A1 & A2 & A3).
      split; [constructor; [intros I; apply H, in_or_app; auto|auto]|]. split; [auto|]. intros y [<-|I]; [intros I; apply H, in_or_app; auto|auto]. }
    destruct b; cbn [concat]; split.
    - intros x I. apply in_or_app. apply in_app_or in I as [I|I]; auto.
    - intros N. apply T in N as (A1 & A2 & A3). apply nodup_app; auto. intros x I J. apply (A3 x I). auto.
    - intros x I. apply in_or_app. auto.
    - intros N. apply T in N as (A1 & A2 & A3). auto. }
  intros r E. apply (G l r E).
Qed.
Lemma ofilter_some {A} (f : A -> option bool) l : (forall x, In x l -> f x <> None) -> ofilter f l <> None.
Proof.
  induction l as [|x l IH]; cbn [ofilter]; intros H; [discriminate|]. pose proof (H x (or_introl eq_refl)). specialize (IH (fun y I => H y (or_intror I))).
  destruct (f x); [|congruence]. destruct (ofilter f l); congruence.
Qed.

Lemma some_nonempty_ok {A B} (f : A -> option (list B)) l : (forall x, In x l -> f x <> None) -> some_nonempty f l <> None.
Proof.
  induction l as [|x l IH]; cbn [some_nonempty]; intros H; [discriminate|]. pose proof (H x (or_introl eq_refl)). specialize (IH (fun y I => H y (or_intror I))).
  destruct (f x) as [[|]|]; congruence.
Qed.
Lemma some_nonempty_false {A B} (f : A -> option (list B)) l : some_nonempty f l = Some false -> forall x, In x l -> f x = Some [].
Proof.
  induction l as [|x l IH]; cbn [some_nonempty]; intros H y; [intros []|]. destruct (f x) as [[|]|] eqn:E; try discriminate.
  intros [<-|I]; auto.
Qed.

(** ** edges *)
Section EdgeGroups.
  Variables (ttv : list Z) (nt : Z).
  Local Notation K := (ekey ttv).
  Definition same (k : list Z) (x : Z * Z) : bool := list_eqb (K x) k.

  Definition EInv (P : list (Z * Z)) (st : list (list Z * list (Z * Z)) * list (list Z)) : Prop :=
    let '(ha, order) := st in
    (forall k g, hlookup k ha = Some g -> g = filter (same k) P /\ g <> []) /\
    (forall k, hlookup k ha = None -> filter (same k) P = []) /\
    NoDup order /\ (forall k, In k order <-> (1 < length (filter (same k) P))%nat).

  Lemma estep P x st : EInv P st -> EInv (P ++ [x]) (edge_step ttv st x).
  Proof.
    destruct st as [ha order]. intros (H1 & H2 & N & O). cbn [edge_step].
    assert (FA : forall k, filter (same k) (P ++ [x]) = filter (same k) P ++ (if same k x then [x] else [])).
    { intros k. rewrite filter_app. cbn [filter]. destruct (same k x); auto. }
    destruct (hlookup (K x) ha) as [g|] eqn:HL.
    - destruct (H1 _ _ HL) as (G & NG). assert (HN : hlookup (K x) ha <> None) by congruence.
      split; [intros k g' E|split; [intros k E|split]].
      + rewrite hlookup_update in E by auto. rewrite FA. unfold same at 2. destruct (list_eqb (K x) k) eqn:EK.
        * injection E as <-. apply list_eqb_eq in EK. subst k. rewrite <- G. split; [auto|]. destruct g; discriminate.
        * rewrite app_nil_r. apply H1. auto.
      + rewrite hlookup_update in E by auto. rewrite FA. unfold same at 2. destruct (list_eqb (K x) k) eqn:EK; [discriminate|]. rewrite app_nil_r. auto.
      + destruct (Nat.eqb (length g) 1) eqn:E1; [|auto]. apply nodup_app; [auto|repeat constructor; auto|]. intros k I [<-|[]]. apply O in I. rewrite <- G in I. apply Nat.eqb_eq in E1. lia.
      + intros k. rewrite FA. unfold same at 2. destruct (list_eqb (K x) k) eqn:EK.
        * apply list_eqb_eq in EK. subst k. rewrite app_length, <- G. cbn [length]. assert (length g <> 0)%nat by (destruct g; cbn; congruence).
          destruct (Nat.eqb (length g) 1) eqn:E1.
          -- apply Nat.eqb_eq in E1. split; [lia|]. intros _. apply in_or_app. right. left. auto.
          -- apply Nat.eqb_neq in E1. rewrite O, <- G. lia.
        * rewrite app_nil_r. rewrite <- O. destruct (Nat.eqb (length g) 1); [|tauto]. rewrite in_app_iff. cbn [In]. split; [intros [|[E|[]]]; [auto|]|auto].
          subst k. rewrite list_eqb_refl in EK. discriminate.
    - pose proof (H2 _ HL) as EM. split; [intros k g' E|split; [intros k E|split]].
      + rewrite hlookup_app in E. rewrite FA. unfold same at 2. destruct (hlookup k ha) as [g|] eqn:F.
        * injection E as <-. destruct (H1 _ _ F) as (-> & NG). destruct (list_eqb (K x) k) eqn:EK; [|rewrite app_nil_r; auto]. apply list_eqb_eq in EK. subst k. congruence.
        * destruct (list_eqb (K x) k) eqn:EK; [|discriminate]. injection E as <-. apply list_eqb_eq in EK. subst k. rewrite EM. split; [auto|discriminate].
      + rewrite hlookup_app in E. rewrite FA. unfold same at 2. destruct (hlookup k ha) as [g|] eqn:F; [discriminate|]. destruct (list_eqb (K x) k); [discriminate|].
        rewrite app_nil_r. auto.
      + auto.
      + intros k. rewrite FA. unfold same at 2. rewrite O. destruct (list_eqb (K x) k) eqn:EK; [|rewrite app_nil_r; tauto].
        apply list_eqb_eq in EK. subst k. rewrite app_length, EM. cbn. lia.
  Qed.
  Lemma erun S : forall P st, EInv P st -> EInv (P ++ S) (fold_left (edge_step ttv) S st).
  Proof.
    induction S as [|x S IH]; intros P st H; cbn [fold_left]; [rewrite app_nil_r; auto|].
    replace (P ++ x :: S) with ((P ++ [x]) ++ S) by (rewrite <- app_assoc; reflexivity). apply IH, estep, H.
  Qed.

  Lemma edge_groups_spec : NoDup (concat (edge_groups ttv nt)) /\
    (forall g, In g (edge_groups ttv nt) -> exists k, g = filter (same k) (all_edges nt)) /\
    (forall x, In x (all_edges nt) -> In (filter (same (K x)) (all_edges nt)) (edge_groups ttv nt) \/ filter (same (K x)) (all_edges nt) = [x]).
  Proof.
    unfold edge_groups. pose proof (erun (all_edges nt) [] ([], [])) as R. cbn [app] in R.
    destruct (fold_left (edge_step ttv) (all_edges nt) ([], [])) as [ha order].
    destruct R as (H1 & H2 & N & O).
    { cbn. split; [discriminate|]. split; [auto|]. split; [constructor|]. intros k. split; [intros []|lia]. }
    assert (NA : NoDup (all_edges nt)) by (apply prod_nodup; apply below_nodup).
    assert (GG : forall k, (match hlookup k ha with Some g => g | None => [] end) = filter (same k) (all_edges nt)).
    { intros k. destruct (hlookup k ha) as [g|] eqn:E; [apply H1; auto|symmetry; apply H2; auto]. }
    split; [|split].
    - apply (nodup_groups _ K); [auto| |].
      + intros k. rewrite GG. apply filter_nodup. auto.
      + intros k x. rewrite GG. intros I. apply filter_In in I as (_ & I). apply list_eqb_eq. auto.
    - intros g I. apply in_map_iff in I as (k & <- & _). exists k. auto.
    - intros x Ix. set (k := K x). destruct (filter (same k) (all_edges nt)) as [|a [|b r]] eqn:E.
      + exfalso. assert (In x (filter (same k) (all_edges nt))) by (apply filter_In; split; [auto|apply list_eqb_refl]). rewrite E in H. destruct H.
      + right. assert (In x (filter (same k) (all_edges nt))) by (apply filter_In; split; [auto|apply list_eqb_refl]). rewrite E in H. destruct H as [->|[]]. auto.
      + left. apply in_map_iff. exists k. rewrite GG, E. split; [auto|]. apply O. rewrite E. cbn. lia.
  Qed.
End EdgeGroups.

(** ** corners *)
Lemma users_spec d ttv nt nv :
  NoDup (concat (map (users d ttv nt) (below nv))) /\
  (forall v x, In x (users d ttv nt v) <-> In x (all_corners d nt) /\ vtx d ttv (fst x) (snd x) = v).
Proof.
  assert (U : forall v x, In x (users d ttv nt v) <-> In x (all_corners d nt) /\ vtx d ttv (fst x) (snd x) = v).
  { intros v x. unfold users. rewrite filter_In, Z.eqb_eq. tauto. }
  split; [|auto]. apply (nodup_groups _ (fun x => vtx d ttv (fst x) (snd x))).
  - apply below_nodup.
  - intros v. apply filter_nodup, prod_nodup; apply below_nodup.
  - intros v x I. apply U in I. tauto.
Qed.
