(** * Lemmas on p4est_connectivity_join_faces: the numbered groups *)

From Coq Require Import ZArith List Bool Lia ZifyBool Permutation.
From Verif Require Import Quad Spec Neighbor Transform Partition Conn ConnLemmas ConnBounds Permute PermuteArray ConnComplete ConnCompleteArray ConnCompleteEdges Join.
Import ListNotations.
Open Scope Z_scope.

(** ** sort_uniq *)
Lemma pair_lt_total x y : pair_lt x y = false -> pair_lt y x = false -> x = y.
Proof. destruct x, y. unfold pair_lt. cbn [fst snd]. intros. f_equal; lia. Qed.
Lemma insert_uniq_in x y l : In y (insert_uniq x l) <-> y = x \/ In y l.
Proof.
  induction l as [|z l IH]; cbn [insert_uniq]; [cbn; intuition|]. destruct (pair_lt x z) eqn:A; [cbn; intuition|].
  destruct (pair_lt z x) eqn:B; [cbn [In]; rewrite IH; tauto|]. pose proof (pair_lt_total _ _ A B). subst. cbn; intuition.
Qed.
Lemma sort_uniq_in y l : In y (sort_uniq l) <-> In y l.
Proof. unfold sort_uniq. induction l as [|x l IH]; cbn [fold_right]; [tauto|]. rewrite insert_uniq_in, IH. cbn. intuition. Qed.
Fixpoint increasing (l : list (Z * Z)) : Prop := match l with [] => True | x :: r => (forall y, In y r -> pair_lt x y = true) /\ increasing r end.
Lemma pair_lt_trans x y z : pair_lt x y = true -> pair_lt y z = true -> pair_lt x z = true.
Proof. destruct x, y, z. unfold pair_lt. cbn [fst snd]. lia. Qed.
Lemma insert_increasing x l : increasing l -> increasing (insert_uniq x l).
Proof.
  induction l as [|z l IH]; cbn [insert_uniq increasing]; [cbn; tauto|]. intros (H & I).
  destruct (pair_lt x z) eqn:A; [|destruct (pair_lt z x) eqn:B]; cbn [increasing]; [split; [|auto]|split; [|auto]|auto].
  - intros y [<-|Iy]; [auto|]. apply (pair_lt_trans _ z); auto.
  - intros y Iy. apply insert_uniq_in in Iy as [->|Iy]; auto.
Qed.
Lemma sort_uniq_nodup l : NoDup (sort_uniq l).
Proof.
  assert (I : increasing (sort_uniq l)) by (unfold sort_uniq; induction l as [|x l IH]; cbn [fold_right]; [exact I|apply insert_increasing; auto]).
  revert I. generalize (sort_uniq l). induction l0 as [|x r IH]; cbn [increasing]; [constructor|]. intros (H & I). constructor; [|auto].
  intros J. apply H in J. destruct x. unfold pair_lt in J. cbn [fst snd] in J. lia.
Qed.

(** ** writing one value *)
Lemma oputs_spec S v : forall xs l, (forall x, In x xs -> 0 <= S * fst x + snd x < zlen l) ->
  exists l', oputs S xs v l = Some l' /\ zlen l' = zlen l /\ (forall x, In x xs -> zget l' (S * fst x + snd x) = Some v) /\
    (forall i, (forall x, In x xs -> S * fst x + snd x <> i) -> zget l' i = zget l i).
Proof.
  induction xs as [|x xs IH]; intros l R; cbn [oputs]; [exists l; split; [auto|split; [auto|split; [intros y []|auto]]]|].
  unfold oput. pose proof (R x (or_introl eq_refl)) as Rx. replace (in_range (S * fst x + snd x) 0 (zlen l)) with true by (symmetry; apply range_true; auto).
  pose proof (zlen_put l _ v Rx) as L. destruct (IH (put l (S * fst x + snd x) v)) as (l' & E & L' & A & B).
  { intros y I. rewrite L. apply R. right. auto. }
  exists l'. split; [auto|]. split; [lia|]. split.
  - intros y [<-|I]; [|auto]. destruct (in_dec Z.eq_dec (S * fst x + snd x) (map (fun z => S * fst z + snd z) xs)) as [J|J].
    + apply in_map_iff in J as (z & Ez & J). rewrite <- Ez. auto.
    + rewrite B; [|intros z Iz Ez; apply J; apply in_map_iff; eauto]. rewrite get_put by auto. rewrite Z.eqb_refl. auto.
  - intros i Hi. rewrite B by (intros y I; apply Hi; right; auto). rewrite get_put by auto.
    specialize (Hi x (or_introl eq_refl)). destruct (i =? S * fst x + snd x) eqn:E'; [lia|auto].
Qed.

(** ** moving entries *)
Lemma firstn_zapp {A} (l m : list A) : firstn (Z.to_nat (zlen l)) (l ++ m) = l.
Proof. unfold zlen. rewrite Nat2Z.id, firstn_app, Nat.sub_diag, firstn_all. cbn. apply app_nil_r. Qed.
Lemma skipn_zapp {A} (l m : list A) : skipn (Z.to_nat (zlen l)) (l ++ m) = m.
Proof. unfold zlen. rewrite Nat2Z.id, skipn_app, Nat.sub_diag, skipn_all. reflexivity. Qed.
Lemma shift_app P Q R T : shift (P ++ Q ++ R ++ T) (zlen P) (zlen P + zlen Q) (zlen R) = Some (P ++ R ++ Q ++ T).
Proof.
  unfold shift. pose proof (zlen0 P). pose proof (zlen0 Q). pose proof (zlen0 R). pose proof (zlen0 T). rewrite !zlen_app'.
  replace (_ && _) with true by lia. rewrite firstn_zapp. replace (zlen P + zlen Q) with (zlen (P ++ Q)) by apply zlen_app'.
  rewrite (app_assoc P Q (R ++ T)), skipn_zapp, firstn_zapp. rewrite <- (app_assoc P Q (R ++ T)), skipn_zapp.
  replace (zlen (P ++ Q) - zlen P) with (zlen Q) by (rewrite zlen_app'; lia). rewrite firstn_zapp.
  replace (zlen (P ++ Q) + zlen R) with (zlen (P ++ Q ++ R)) by (rewrite !zlen_app'; lia).
  replace (P ++ Q ++ R ++ T) with ((P ++ Q ++ R) ++ T) by (rewrite <- !app_assoc; reflexivity). rewrite skipn_zapp. reflexivity.
Qed.
Lemma zslice_app {A} (P R T : list A) : zslice (P ++ R ++ T) (zlen P) (length R) = Some R.
Proof.
  revert P. induction R as [|x R IH]; intros P; cbn [length zslice]; [reflexivity|].
  rewrite zg_app2 by lia. rewrite Z.sub_diag. cbn. specialize (IH (P ++ [x])). rewrite zlen_app', <- app_assoc in IH. cbn [app] in IH.
  replace (zlen P + zlen [x]) with (zlen P + 1) in IH by (unfold zlen; cbn; lia). rewrite IH. reflexivity.
Qed.

(** ** offsets *)
Fixpoint sums (b : Z) (ls : list Z) : list Z := match ls with [] => [b] | n :: r => b :: sums (b + n) r end.
Definition lens (gs : list (list (Z * Z))) : list Z := map zlen gs.
Definition total (gs : list (list (Z * Z))) : Z := zlen (concat gs).
Lemma total_app a b : total (a ++ b) = total a + total b.
Proof. unfold total. rewrite concat_app, zlen_app'. reflexivity. Qed.
Lemma total_cons g b : total (g :: b) = zlen g + total b.
Proof. unfold total. cbn [concat]. apply zlen_app'. Qed.
Lemma total0 a : 0 <= total a.
Proof. apply zlen0. Qed.
Lemma zlen_cons {A} (x : A) l : zlen (x :: l) = 1 + zlen l.
Proof. unfold zlen. cbn [length]. lia. Qed.
Lemma sums_len ls : forall b, zlen (sums b ls) = zlen ls + 1.
Proof. induction ls as [|n ls IH]; intros b; cbn [sums]; [reflexivity|]. rewrite !zlen_cons, IH. lia. Qed.
Lemma sums_at A B : forall b, zget (sums b (lens (A ++ B))) (zlen A) = Some (b + total A).
Proof.
  unfold lens. induction A as [|g A IH]; intros b; cbn [app map sums].
  - destruct B; cbn; f_equal; unfold total, zlen; cbn; lia.
  - rewrite zlen_cons. pose proof (zlen0 A). rewrite zget_cons by lia. replace (1 + zlen A - 1) with (zlen A) by lia. rewrite IH, total_cons. f_equal. lia.
Qed.
Lemma sums_snoc ls n : forall b, exists s, zget (sums b ls) (zlen ls) = Some s /\ sums b (ls ++ [n]) = sums b ls ++ [s + n].
Proof.
  induction ls as [|m ls IH]; intros b; cbn [app sums]; [exists b; auto|].
  destruct (IH (b + m)) as (s & E & F). exists s. rewrite zlen_cons. pose proof (zlen0 ls). rewrite zget_cons by lia. replace (1 + zlen ls - 1) with (zlen ls) by lia.
  split; [auto|]. rewrite F. reflexivity.
Qed.
(** every position splits the list *)
Lemma zsplit {A} (l : list A) i : 0 <= i <= zlen l -> exists a b, l = a ++ b /\ zlen a = i.
Proof.
  intros H. exists (firstn (Z.to_nat i) l), (skipn (Z.to_nat i) l). split; [symmetry; apply firstn_skipn|].
  unfold zlen in *. rewrite firstn_length. lia.
Qed.
Lemma zsplit_at {A} (l : list A) i x : zget l i = Some x -> exists a b, l = a ++ x :: b /\ zlen a = i.
Proof.
  intros E. pose proof (zget_range _ _ _ E) as R. destruct (zsplit l i ltac:(lia)) as (a & b & -> & L). rewrite zg_app2 in E by lia. rewrite L, Z.sub_diag in E.
  destruct b as [|y b]; [discriminate|]. cbn in E. injection E as ->. eauto.
Qed.
Lemma ext {A} (l m : list A) : zlen l = zlen m -> (forall i, 0 <= i < zlen l -> zget l i = zget m i) -> l = m.
Proof.
  revert m. induction l as [|x l IH]; intros [|y m] L H; unfold zlen in L; cbn [length] in L; try lia; [reflexivity|].
  pose proof (zlen0 l). f_equal; [specialize (H 0); rewrite zlen_cons in H; specialize (H ltac:(lia)); cbn in H; congruence|].
  apply IH; [unfold zlen; lia|]. intros i Hi. specialize (H (i + 1)). rewrite zlen_cons in H. specialize (H ltac:(lia)).
  rewrite !zget_cons in H by lia. replace (i + 1 - 1) with i in H by lia. auto.
Qed.
Lemma zget_combine_below (l : list Z) i : 0 <= i < zlen l -> zget (combine (below (zlen l)) l) i = option_map (fun v => (i, v)) (zget l i).
Proof.
  intros H. unfold below, zlen in *. rewrite Nat2Z.id. rewrite !zg by lia.
  assert (G : forall (l : list Z) s k, (k < length l)%nat -> nth_error (combine (map Z.of_nat (seq s (length l))) l) k = option_map (fun v => (Z.of_nat (s + k), v)) (nth_error l k)).
  { clear. induction l as [|x l IH]; intros s [|k] H; cbn [length] in *; try lia; cbn [seq map combine nth_error option_map]; [rewrite Nat.add_0_r; reflexivity|].
    rewrite IH by lia. replace (S s + k)%nat with (s + S k)%nat by lia. reflexivity. }
  rewrite G by lia. replace (Z.of_nat (0 + Z.to_nat i)) with i by lia. reflexivity.
Qed.
Lemma raise_len off a b n : zlen (raise off a b n) = zlen off.
Proof. unfold raise, zlen. rewrite map_length, combine_length. unfold below. rewrite map_length, seq_length. unfold zlen. lia. Qed.
Lemma raise_get off a b n i : 0 <= i < zlen off -> zget (raise off a b n) i = option_map (fun v => if (a <? i) && (i <=? b) then v + n else v) (zget off i).
Proof. intros H. unfold raise. rewrite map_zget, zget_combine_below by auto. destruct (zget off i); reflexivity. Qed.

Lemma raise_sums A g0 B g1 C : let a := zlen A in let b := zlen A + 1 + zlen B in
  raise (sums 0 (lens (A ++ g0 :: B ++ g1 :: C))) a b (zlen g1) = sums 0 (lens (A ++ (g0 ++ g1) :: B ++ [] :: C)).
Proof.
  intros a b. pose proof (zlen0 A) as PA. pose proof (zlen0 B) as PB. pose proof (zlen0 C) as PC.
  assert (LL : forall X Y Z : list (list (Z * Z)), forall x y, zlen (lens (X ++ x :: Y ++ y :: Z)) = zlen X + 1 + zlen Y + 1 + zlen Z).
  { intros. unfold lens. replace (zlen (map zlen (X ++ x :: Y ++ y :: Z))) with (zlen (X ++ x :: Y ++ y :: Z)) by (unfold zlen; rewrite map_length; reflexivity).
    rewrite !zlen_app', !zlen_cons, !zlen_app', zlen_cons. lia. }
  apply ext; [rewrite raise_len, !sums_len, !LL; reflexivity|]. rewrite raise_len, sums_len, LL. intros i Hi. rewrite raise_get by (rewrite sums_len, LL; lia).
  destruct (i <=? a) eqn:C1.
  - destruct (zsplit A i ltac:(lia)) as (A1 & A2 & -> & L). rewrite <- !app_assoc, <- L, !sums_at. cbn [option_map]. replace (a <? zlen A1) with false by lia. reflexivity.
  - destruct (i <=? b) eqn:C2.
    + destruct (zsplit B (i - a - 1) ltac:(lia)) as (B1 & B2 & -> & L).
      replace (A ++ g0 :: (B1 ++ B2) ++ g1 :: C) with ((A ++ g0 :: B1) ++ B2 ++ g1 :: C) by (rewrite <- !app_assoc; reflexivity).
      replace (A ++ (g0 ++ g1) :: (B1 ++ B2) ++ [] :: C) with ((A ++ (g0 ++ g1) :: B1) ++ B2 ++ [] :: C) by (rewrite <- !app_assoc; reflexivity).
      pose proof (sums_at (A ++ g0 :: B1) (B2 ++ g1 :: C) 0) as X1. pose proof (sums_at (A ++ (g0 ++ g1) :: B1) (B2 ++ [] :: C) 0) as X2.
      rewrite (zlen_app' A), zlen_cons in X1, X2. replace (zlen A + (1 + zlen B1)) with i in X1, X2 by lia.
      rewrite X1, X2. cbn [option_map]. replace (a <? i) with true by lia. cbn [andb]. rewrite !total_app, !total_cons, zlen_app'. f_equal. lia.
    + destruct (zsplit C (i - b - 1) ltac:(lia)) as (C3 & C4 & -> & L).
      replace (A ++ g0 :: B ++ g1 :: C3 ++ C4) with ((A ++ g0 :: B ++ g1 :: C3) ++ C4) by (rewrite <- !app_assoc; cbn [app]; rewrite <- app_assoc; reflexivity).
      replace (A ++ (g0 ++ g1) :: B ++ [] :: C3 ++ C4) with ((A ++ (g0 ++ g1) :: B ++ [] :: C3) ++ C4) by (rewrite <- !app_assoc; cbn [app]; rewrite <- app_assoc; reflexivity).
      pose proof (sums_at (A ++ g0 :: B ++ g1 :: C3) C4 0) as X1. pose proof (sums_at (A ++ (g0 ++ g1) :: B ++ [] :: C3) C4 0) as X2.
      rewrite (zlen_app' A), zlen_cons, (zlen_app' B), zlen_cons in X1, X2. replace (zlen A + (1 + (zlen B + (1 + zlen C3)))) with i in X1, X2 by lia.
      rewrite X1, X2. cbn [option_map]. rewrite andb_false_r. rewrite !total_app, !total_cons, !total_app, !total_cons, zlen_app'. f_equal. change (zlen (@nil (Z * Z))) with 0. lia.
Qed.

(** ** The groups that a connectivity stores *)
Record stores (d : dim) (c : conn) (gs : list (list (Z * Z))) : Prop := {
  st_nc : c_nc c = zlen gs;
  st_off : c_coff c = sums 0 (lens gs);
  st_tree : c_ctt c = map fst (concat gs);
  st_corner : c_ctc c = map snd (concat gs);
  st_once : NoDup (concat gs);
  st_range : forall x, In x (concat gs) -> 0 <= fst x < c_nt c /\ 0 <= snd x < children d;
  st_null : c_ttc c = [] -> gs = [];
  st_len : c_ttc c <> [] -> zlen (c_ttc c) = children d * c_nt c;
  st_in : forall j g x, zget gs j = Some g -> In x g -> zget (c_ttc c) (children d * fst x + snd x) = Some j;
  st_out : forall x, c_ttc c <> [] -> 0 <= fst x < c_nt c -> 0 <= snd x < children d -> ~ In x (concat gs) -> zget (c_ttc c) (children d * fst x + snd x) = Some (-1) }.

Lemma sums_slice gs : forall j g, zget gs j = Some g -> exists A B, gs = A ++ g :: B /\ zlen A = j /\
  zget (sums 0 (lens gs)) j = Some (total A) /\ zget (sums 0 (lens gs)) (j + 1) = Some (total A + zlen g) /\ concat gs = concat A ++ g ++ concat B.
Proof.
  intros j g E. destruct (zsplit_at _ _ _ E) as (A & B & -> & L). exists A, B. split; [auto|]. split; [auto|].
  split; [rewrite <- L, sums_at; reflexivity|]. split; [|rewrite concat_app; reflexivity].
  replace (A ++ g :: B) with ((A ++ [g]) ++ B) by (rewrite <- app_assoc; reflexivity).
  replace (j + 1) with (zlen (A ++ [g])) by (rewrite zlen_app'; unfold zlen at 2; cbn; lia). rewrite sums_at, total_app, total_cons. f_equal. change (total []) with 0. lia.
Qed.

Lemma stores_arranged d c gs : c_ttc c <> [] -> stores d c gs -> arranged (children d) (c_nt c) snd gs (c_ttc c) (c_coff c) (c_ctt c) (c_ctc c).
Proof.
  intros NN [S1 S2 S3 S4 S5 S6 S7 S8 S9 S10]. rewrite S2, S3, S4.
  assert (LM : forall {B} (f : Z * Z -> B) l, zlen (map f l) = zlen l) by (intros; unfold zlen; rewrite map_length; reflexivity).
  constructor.
  - auto.
  - rewrite sums_len. unfold lens. unfold zlen. rewrite map_length. reflexivity.
  - rewrite !LM. reflexivity.
  - unfold lens. destruct gs; reflexivity.
  - pose proof (sums_at gs [] 0) as E. rewrite app_nil_r in E. rewrite E. rewrite LM. reflexivity.
  - auto.
  - auto.
  - intros j g E. destruct (sums_slice gs j g E) as (A & B & G & L & E1 & E2 & CC). exists (total A). split; [auto|]. split; [auto|]. pose proof (total0 A) as PA. split; [auto|].
    rewrite CC. split; [rewrite LM, !zlen_app'; unfold total; pose proof (zlen0 (concat B)); lia|].
    intros i x Ex. pose proof (zget_range _ _ _ Ex) as Ri. rewrite !map_zget. rewrite zg_app2 by (unfold total in *; lia).
    replace (total A + i - zlen (concat A)) with i by (unfold total; lia). rewrite zg_app1 by lia. rewrite Ex. auto.
  - rewrite LM. intros i Hi. destruct (zget_some (concat gs) i Hi) as (x & Ex). exists x. rewrite !map_zget, Ex. split; [eapply zget_in; eauto|auto].
Qed.
