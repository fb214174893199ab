(** * Lemmas on p4est_connectivity_complete: keys, lists, numbered groups *)

From Coq Require Import ZArith List Bool Lia ZifyBool Permutation.
From Verif Require Import Quad Neighbor Transform Partition Conn ConnLemmas Permute PermuteArray ConnComplete.
Import ListNotations.
Open Scope Z_scope.

Lemma zlen0 {A} (l : list A) : 0 <= zlen l.
Proof. unfold zlen. lia. Qed.
Lemma below_in n x : In x (below n) <-> 0 <= x < n.
Proof.
  unfold below. rewrite in_map_iff. split.
  - intros (k & <- & I). apply in_seq in I. lia.
  - intros H. exists (Z.to_nat x). split; [lia|]. apply in_seq. lia.
Qed.
Lemma below_nodup n : NoDup (below n).
Proof. unfold below. apply FinFun.Injective_map_NoDup; [intros a b; lia|apply seq_NoDup]. Qed.
Lemma below_len n : 0 <= n -> zlen (below n) = n.
Proof. intros H. unfold zlen, below. rewrite map_length, seq_length. lia. Qed.
Lemma prod_nodup {A B} (l : list A) (m : list B) : NoDup l -> NoDup m -> NoDup (list_prod l m).
Proof.
  intros Nl Nm. induction Nl as [|x l NI Nl IH]; cbn [list_prod]; [constructor|].
  assert (NM : NoDup (map (fun y => (x, y)) m)) by (apply FinFun.Injective_map_NoDup; [intros a b E; congruence|auto]).
  revert NM. assert (Q : forall z, In z (map (fun y => (x, y)) m) -> ~ In z (list_prod l m)).
  { intros z I J. apply in_map_iff in I as (y & <- & _). apply in_prod_iff in J as (J & _). auto. }
  revert Q. generalize (map (fun y => (x, y)) m). induction l0 as [|z l0 IH0]; intros Q NM; [exact IH|]. cbn [app]. inversion_clear NM.
  constructor; [|apply IH0; auto; intros w I; apply Q; right; auto]. intros I. apply in_app_or in I as [I|I]; [auto|]. apply (Q z (or_introl eq_refl)). auto.
Qed.
Lemma filter_nodup {A} (f : A -> bool) l : NoDup l -> NoDup (filter f l).
Proof. intros N. induction N as [|x l NI N IH]; cbn [filter]; [constructor|]. destruct (f x); [|auto]. constructor; [|auto]. intros I. apply filter_In in I as (I & _). auto. Qed.

(** ** keys *)
Lemma bubble_perm l : forall x, Permutation (bubble x l) (x :: l).
Proof.
  induction l as [|y l IH]; intros x; cbn [bubble]; [auto|]. destruct (x >? y).
  - rewrite IH. apply perm_swap.
  - rewrite IH. auto.
Qed.
Lemma bpass_perm l : Permutation (bpass l) l.
Proof. destruct l; cbn [bpass]; [auto|apply bubble_perm]. Qed.
Lemma bsort_perm l : Permutation (bsort l) l.
Proof. unfold bsort. induction (length l - 1)%nat as [|n IH]; cbn; [auto|]. rewrite bpass_perm. exact IH. Qed.

Fixpoint ascending (l : list Z) : Prop := match l with [] => True | x :: r => (forall y, In y r -> x <= y) /\ ascending r end.
Lemma ascending_unique l : forall m, ascending l -> ascending m -> Permutation l m -> l = m.
Proof.
  induction l as [|x l IH]; intros m Al Am P.
  - apply Permutation_nil in P. auto.
  - destruct m as [|y m]; [apply Permutation_sym, Permutation_nil in P; discriminate|]. cbn in Al, Am. destruct Al as [Lx Al], Am as [Ly Am].
    assert (x = y).
    { assert (I : In x (y :: m)) by (eapply Permutation_in; [exact P|left; auto]). assert (J : In y (x :: l)) by (eapply Permutation_in; [apply Permutation_sym; exact P|left; auto]).
      cbn in I, J. destruct I as [I|I]; [auto|]. destruct J as [J|J]; [auto|]. specialize (Lx y J). specialize (Ly x I). lia. }
    subst y. f_equal. apply IH; auto. eapply Permutation_cons_inv. exact P.
Qed.
Lemma bsort2 a b : ascending (bsort [a; b]).
Proof.
  change (bsort [a; b]) with (bpass [a; b]). cbn [bubble bpass]. destruct (a >? b) eqn:E; cbn [ascending In]; repeat split; intros; intuition lia.
Qed.
Lemma bsort4 a b c d : ascending (bsort [a; b; c; d]).
Proof.
  change (bsort [a; b; c; d]) with (bpass (bpass (bpass [a; b; c; d]))). cbn [bubble bpass].
  repeat (match goal with |- context [?x >? ?y] => let E := fresh in destruct (x >? y) eqn:E end; cbn [bubble bpass]);
  cbn [ascending In]; repeat split; intros; intuition lia.
Qed.
Lemma fkey_eq d ttv x y : fkey d ttv x = fkey d ttv y <-> Permutation (fverts d ttv x) (fverts d ttv y).
Proof.
  unfold fkey. split.
  - intros E. rewrite <- (bsort_perm (fverts d ttv x)), E. apply bsort_perm.
  - intros P. apply ascending_unique.
    + destruct d; [apply bsort2|apply bsort4].
    + destruct d; [apply bsort2|apply bsort4].
    + rewrite !bsort_perm. exact P.
Qed.
Lemma ekey_eq ttv x y : ekey ttv x = ekey ttv y <-> Permutation (everts ttv x) (everts ttv y).
Proof.
  unfold ekey. split.
  - intros E. rewrite <- (bsort_perm (everts ttv x)), E. apply bsort_perm.
  - intros P. apply ascending_unique; [apply bsort2|apply bsort2|]. rewrite !bsort_perm. exact P.
Qed.

Lemma list_eqb_eq a : forall b, list_eqb a b = true <-> a = b.
Proof.
  induction a as [|x a IH]; intros [|y b]; cbn [list_eqb]; try (split; congruence).
  rewrite andb_true_iff, IH, Z.eqb_eq. split; [intros []; congruence|intros E; injection E as -> ->; auto].
Qed.
Lemma list_eqb_refl a : list_eqb a a = true.
Proof. apply list_eqb_eq. auto. Qed.
Lemma hlookup_app {A} key (h : list (list Z * A)) k a : hlookup key (h ++ [(k, a)]) = match hlookup key h with Some x => Some x | None => if list_eqb k key then Some a else None end.
Proof. induction h as [|[k' a'] h IH]; cbn [app hlookup]; [reflexivity|]. destruct (list_eqb k' key); auto. Qed.
Lemma hlookup_update {A} key (h : list (list Z * A)) k a : hlookup k h <> None -> hlookup key (hupdate k a h) = if list_eqb k key then Some a else hlookup key h.
Proof.
  induction h as [|[k' a'] h IH]; cbn [hlookup hupdate]; [congruence|]. intros H. destruct (list_eqb k' k) eqn:E.
  - apply list_eqb_eq in E. subst k'. cbn [hlookup]. destruct (list_eqb k key); auto.
  - cbn [hlookup]. rewrite IH by auto. destruct (list_eqb k' key) eqn:F; [|auto]. destruct (list_eqb k key) eqn:G; [|auto].
    apply list_eqb_eq in F, G. subst. rewrite list_eqb_refl in E. discriminate.
Qed.

(** ** numbered groups *)
Definition eidx (m : entry) : Z := fst (fst m).
Definition etree (m : entry) : Z := snd (fst m).
Definition ecd (m : entry) : Z := snd m.

Lemma number_spec g n : forall nm, (forall m, In m g -> 0 <= eidx m < zlen nm) ->
  zlen (number g n nm) = zlen nm /\ (forall m, In m g -> zget (number g n nm) (eidx m) = Some n) /\
  (forall i, (forall m, In m g -> eidx m <> i) -> zget (number g n nm) i = zget nm i).
Proof.
  unfold number. induction g as [|m g IH]; intros nm R; cbn [fold_left]; [repeat split; auto; intros m []|].
  pose proof (R m (or_introl eq_refl)) as Rm. unfold eidx in Rm.
  destruct (IH (put nm (fst (fst m)) n)) as (L & A & B); [intros m' I; rewrite zlen_put by auto; apply R; right; auto|].
  rewrite zlen_put in L by auto. split; [auto|]. split.
  - intros m' [<-|I]; [|auto]. destruct (in_dec Z.eq_dec (eidx m) (map eidx g)) as [J|J].
    + apply in_map_iff in J as (m2 & E & J). rewrite <- E. auto.
    + rewrite B; [|intros m2 J2 E; apply J; rewrite <- E; apply in_map; auto]. rewrite get_put by auto. unfold eidx. rewrite Z.eqb_refl. auto.
  - intros i Hi. rewrite B by (intros m' I; apply Hi; right; auto). rewrite get_put by auto.
    specialize (Hi m (or_introl eq_refl)). unfold eidx in Hi. destruct (i =? fst (fst m)) eqn:E; [lia|auto].
Qed.

Fixpoint offs (b : Z) (gs : list (list entry)) : list Z :=
  match gs with [] => [b] | g :: r => b :: offs (b + zlen g) r end.

Lemma fold_groups gs : forall nm off ts cs,
  (forall g m, In g gs -> In m g -> 0 <= eidx m < zlen nm) ->
  NoDup (map eidx (concat gs)) ->
  exists nm' off', fold_left group_step gs (nm, off, ts, cs) = (nm', off', ts ++ map etree (concat gs), cs ++ map ecd (concat gs)) /\
    off' ++ [zlen (ts ++ map etree (concat gs))] = off ++ offs (zlen ts) gs /\ zlen nm' = zlen nm /\
    (forall j g m, zget gs j = Some g -> In m g -> zget nm' (eidx m) = Some (zlen off + j)) /\
    (forall i, (forall g m, In g gs -> In m g -> eidx m <> i) -> zget nm' i = zget nm i).
Proof.
  induction gs as [|g gs IH]; intros nm off ts cs R N; cbn [fold_left].
  - exists nm, off. cbn. rewrite !app_nil_r. repeat split; auto. intros j g m E. apply zget_in in E. destruct E.
  - cbn [concat] in N. rewrite map_app in N.
    destruct (number_spec g (zlen off) nm (fun m I => R g m (or_introl eq_refl) I)) as (L & A & B).
    destruct (IH (number g (zlen off) nm) (off ++ [zlen ts]) (ts ++ map etree g) (cs ++ map ecd g)) as (nm' & off' & F & O & L' & A' & B').
    + intros g' m I J. rewrite L. apply (R g' m); [right|]; auto.
    + clear -N. revert N. induction (map eidx g); cbn [app]; [auto|]. intros N. inversion_clear N. auto.
    + exists nm', off'. cbn [group_step].
      replace (map (fun m : entry => snd (fst m)) g) with (map etree g) by reflexivity. replace (map (fun m : entry => snd m) g) with (map ecd g) by reflexivity.
      rewrite F. split; [f_equal; [f_equal|]; cbn [concat]; rewrite map_app, app_assoc; auto|]. split; [|split; [lia|split]].
      * cbn [concat offs]. rewrite map_app, (app_assoc ts), O, <- app_assoc. cbn [app]. do 3 f_equal. rewrite zlen_app'. unfold zlen. rewrite map_length. auto.
      * intros j g' m E I. pose proof (zget_range _ _ _ E) as Rj. destruct (Z.eq_dec j 0) as [->|NZ].
        -- cbn in E. injection E as <-. rewrite B'.
           ++ rewrite A by auto. f_equal. lia.
           ++ intros g2 m2 I2 J2 E2. clear -N I I2 J2 E2.
              assert (X : In (eidx m2) (map eidx (concat gs))) by (apply in_map, in_concat; eauto).
              assert (Y : In (eidx m2) (map eidx g)) by (rewrite E2; apply in_map; auto).
              revert N X Y. generalize (map eidx (concat gs)) as q. generalize (map eidx g) as p. clear. intros p q N X Y.
              induction p as [|z p IHp]; [destruct Y|]. cbn [app] in N. inversion_clear N. destruct Y as [->|Y]; [apply H; apply in_or_app; auto|auto].
        -- replace (Some (zlen off + j)) with (Some (zlen (off ++ [zlen ts]) + (j - 1))) by (f_equal; rewrite zlen_app'; cbn; lia).
           apply (A' (j - 1) g' m); [|auto]. rewrite <- E. rewrite (zg _ j), zg by lia. replace (Z.to_nat j) with (S (Z.to_nat (j - 1))) by lia. reflexivity.
      * intros i Hi. rewrite B' by (intros g' m I J; apply (Hi g' m); [right|]; auto). apply B. intros m I. apply (Hi g m); [left|]; auto.
Qed.

Lemma offs_len b gs : zlen (offs b gs) = zlen gs + 1.
Proof. revert b. induction gs as [|g gs IH]; intros b; cbn [offs]; [reflexivity|]. unfold zlen in *. cbn [length]. specialize (IH (b + zlen g)). unfold zlen in IH. lia. Qed.
Lemma offs_first b gs : zget (offs b gs) 0 = Some b.
Proof. destruct gs; reflexivity. Qed.
Lemma zget_cons {A} (x : A) l i : 0 < i -> zget (x :: l) i = zget l (i - 1).
Proof. intros H. rewrite !zg by lia. replace (Z.to_nat i) with (S (Z.to_nat (i - 1))) by lia. reflexivity. Qed.
Lemma offs_spec gs : forall pre b j g, zget gs j = Some g -> b = zlen pre ->
  exists s, zget (offs b gs) j = Some s /\ zget (offs b gs) (j + 1) = Some (s + zlen g) /\ b <= s /\
    s + zlen g <= b + zlen (concat gs) /\
    (forall i, 0 <= i < zlen g -> zget (pre ++ concat gs) (s + i) = zget g i).
Proof.
  induction gs as [|h gs IH]; intros pre b j g E B; [apply zget_in in E; destruct E|].
  pose proof (zget_range _ _ _ E) as Rj. cbn [offs concat]. destruct (Z.eq_dec j 0) as [->|NZ].
  - cbn in E. injection E as ->. exists b. split; [reflexivity|]. split; [rewrite zget_cons by lia; apply offs_first|].
    split; [lia|]. split; [rewrite zlen_app'; pose proof (zlen0 (concat gs)); lia|]. intros i Hi. rewrite zg_app2 by lia. replace (b + i - zlen pre) with i by lia.
    apply zg_app1. lia.
  - rewrite zget_cons in E by lia. destruct (IH (pre ++ h) (b + zlen h) (j - 1) g E) as (s & S1 & S2 & S3 & S4 & S5); [rewrite zlen_app'; lia|].
    exists s. rewrite !zget_cons by lia. rewrite S1. replace (j + 1 - 1) with (j - 1 + 1) by lia. rewrite S2. rewrite zlen_app'. pose proof (zlen0 h).
    repeat split; [lia|lia|]. intros i Hi. rewrite <- S5 by auto. rewrite app_assoc. auto.
Qed.
Lemma offs_last gs : forall b, zget (offs b gs) (zlen gs) = Some (b + zlen (concat gs)).
Proof.
  induction gs as [|g gs IH]; intros b; cbn [offs concat]; [cbn; f_equal; lia|].
  replace (zlen (g :: gs)) with (1 + zlen gs) by (unfold zlen; cbn [length]; lia). pose proof (zlen0 gs). rewrite zget_cons by lia.
  replace (1 + zlen gs - 1) with (zlen gs) by lia. rewrite IH, zlen_app'. f_equal. lia.
Qed.

Lemma rep_get n i : 0 <= i < n -> zget (repeat (-1) (Z.to_nat n)) i = Some (-1).
Proof. intros H. rewrite zg by lia. apply nth_error_repeat. lia. Qed.
Lemma rep_len n : 0 <= n -> zlen (repeat (-1) (Z.to_nat n)) = n.
Proof. intros H. unfold zlen. rewrite repeat_length. lia. Qed.
Lemma map_zget {A B} (f : A -> B) l i : zget (map f l) i = option_map f (zget l i).
Proof. unfold zget. destruct (i <? 0); [reflexivity|]. apply nth_error_map. Qed.

(** what the four arrays hold *)
Lemma assemble_spec size gs : 0 <= size -> (forall g m, In g gs -> In m g -> 0 <= eidx m < size) -> NoDup (map eidx (concat gs)) ->
  exists nm off ts cs, assemble size gs = (nm, off, ts, cs) /\ zlen nm = size /\ zlen off = zlen gs + 1 /\ zlen cs = zlen ts /\
    zget off 0 = Some 0 /\ zget off (zlen gs) = Some (zlen ts) /\ ts = map etree (concat gs) /\ cs = map ecd (concat gs) /\
    (forall j g m, zget gs j = Some g -> In m g -> zget nm (eidx m) = Some j) /\
    (forall i, 0 <= i < size -> (forall g m, In g gs -> In m g -> eidx m <> i) -> zget nm i = Some (-1)) /\
    (forall j g, zget gs j = Some g -> exists s, zget off j = Some s /\ zget off (j + 1) = Some (s + zlen g) /\ 0 <= s /\ s + zlen g <= zlen ts /\
       (forall i, 0 <= i < zlen g -> zget ts (s + i) = option_map etree (zget g i) /\ zget cs (s + i) = option_map ecd (zget g i))).
Proof.
  intros Hs R N. unfold assemble.
  destruct (fold_groups gs (repeat (-1) (Z.to_nat size)) [] [] []) as (nm & off & F & O & L & A & B); [intros; rewrite rep_len by auto; eauto|auto|].
  cbn [app] in F, O. exists nm, (offs 0 gs), (map etree (concat gs)), (map ecd (concat gs)). rewrite F, O. rewrite rep_len in L by auto.
  split; [reflexivity|]. split; [auto|]. split; [apply offs_len|]. split; [unfold zlen; rewrite !map_length; auto|]. split; [apply offs_first|].
  split; [rewrite offs_last; f_equal; unfold zlen; rewrite map_length; lia|]. split; [auto|]. split; [auto|]. split; [intros j g m E I; rewrite (A j g m E I); reflexivity|].
  split; [intros i Hi Q; rewrite B by auto; apply rep_get; auto|].
  intros j g E. destruct (offs_spec gs [] 0 j g E eq_refl) as (s & S1 & S2 & S3 & S4 & S5). exists s. cbn [app] in S5.
  split; [auto|]. split; [auto|]. split; [auto|]. split; [unfold zlen in *; rewrite map_length; lia|].
  intros i Hi. rewrite !map_zget, S5 by auto. auto.
Qed.
