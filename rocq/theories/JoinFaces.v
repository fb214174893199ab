(** * p4est_connectivity_join_faces in 2D: the corners that meet, the faces, validity *)

From Coq Require Import ZArith List Bool Lia ZifyBool Permutation Relations.
From Verif Require Import Quad Spec Neighbor Transform Partition Conn ConnLemmas ConnBounds Permute PermuteArray ConnComplete ConnCompleteArray ConnCompleteEdges ConnCompleteCorners PropertiesConn Join JoinArray JoinCorners.
Import ListNotations.
Open Scope Z_scope.

Definition corner_of (d : dim) (c : conn) (x : Z * Z) : Prop := 0 <= fst x < c_nt c /\ 0 <= snd x < children d.
Definition next (d : dim) (c : conn) (x y : Z * Z) : Prop := across_face d c (fst x) (snd x) (fst y) (snd y).
Definition together (gs : list (list (Z * Z))) (x y : Z * Z) : Prop := exists g, In g gs /\ In x g /\ In y g.
(** tree corners that meet: through a face, or by the stored corners *)
Definition meet (d : dim) (c : conn) (gs : list (list (Z * Z))) (x y : Z * Z) : Prop := x = y \/ next d c x y \/ together gs x y.
(** the faces and the stored corners agree, and a corner is left out only if the faces tell it all *)
Definition whole (d : dim) (c : conn) (gs : list (list (Z * Z))) : Prop :=
  (forall g x y, In g gs -> In x g -> next d c x y -> In y g) /\
  (forall x y z, corner_of d c x -> ~ In x (concat gs) -> next d c x y -> next d c y z -> z = x \/ next d c x z).

Ltac two i H := assert (i = 0 \/ i = 1) as [->| ->] by (clear - H; lia).
Ltac four i H := assert (i = 0 \/ i = 1 \/ i = 2 \/ i = 3) as [->|[->|[->| ->]]] by (clear - H; lia).
Lemma corner_face_table k f : 0 <= k < 4 -> (exists i, 0 <= i < 2 /\ f = corner_faces D2 k i) <-> 0 <= f < 4 /\ exists j, 0 <= j < 2 /\ k = face_corners D2 f j.
Proof.
  intros Hk. split.
  - intros (i & Hi & ->). two i Hi; four k Hk; (split; [cbv; split; [discriminate|reflexivity]|]); first [exists 0; split; [lia|reflexivity]|exists 1; split; [lia|reflexivity]].
  - intros (Hf & j & Hj & ->). two j Hj; four f Hf; first [exists 0; split; [lia|reflexivity]|exists 1; split; [lia|reflexivity]].
Qed.
Lemma neighbor_table f j nf o : 0 <= f < 4 -> 0 <= j < 2 -> 0 <= nf < 4 -> 0 <= o < 2 -> face_neighbor_corner D2 (face_corners D2 f j) f nf o = face_corners D2 nf (Z.lxor j o).
Proof. intros Hf Hj Hn Ho. two j Hj; two o Ho; four f Hf; four nf Hn; reflexivity. Qed.
Lemma face_corner_range f j : 0 <= f < 4 -> 0 <= j < 2 -> 0 <= face_corners D2 f j < 4.
Proof. intros Hf Hj. two j Hj; four f Hf; cbv; split; congruence. Qed.
Lemma flip_range j o : 0 <= j < 2 -> 0 <= o < 2 -> 0 <= Z.lxor j o < 2 /\ Z.lxor (Z.lxor j o) o = j.
Proof. intros Hj Ho. two j Hj; two o Ho; cbn; lia. Qed.
Lemma code_parts nf o : 0 <= nf < 4 -> 0 <= o -> (nf + 4 * o) mod 4 = nf /\ (nf + 4 * o) / 4 = o.
Proof. intros. pose proof (Z.div_mod (nf + 4 * o) 4 ltac:(lia)). pose proof (Z.mod_pos_bound (nf + 4 * o) 4 ltac:(lia)). lia. Qed.

(** [links c t f nt nf o]: face f of tree t is linked to face nf of tree nt, which is another one *)
Definition links (c : conn) (t f nt nf o : Z) : Prop :=
  zget (c_ttt c) (4 * t + f) = Some nt /\ zget (c_ttf c) (4 * t + f) = Some (nf + 4 * o) /\ 0 <= nf < 4 /\ 0 <= o < 2 /\ ~ (nt = t /\ nf = f).

Section TwoD.
  Variable c : conn.
  Hypothesis FV : forall t f, 0 <= t < c_nt c -> 0 <= f < 4 -> valid_face D2 c t f = Some true.
  Notation inr := (corner_of D2 c).

  Lemma link_valid t f : 0 <= t < c_nt c -> 0 <= f < 4 ->
    (zget (c_ttt c) (4 * t + f) = Some t /\ zget (c_ttf c) (4 * t + f) = Some f) \/
    exists nt nf o, links c t f nt nf o /\ links c nt nf t f o /\ 0 <= nt < c_nt c.
  Proof.
    intros Ht Hf. destruct (valid_face_true _ _ _ _ (FV t f Ht Hf)) as (nt & code & E1 & E2 & R1 & R2 & K). cbn [faces half] in *.
    replace (t * 4 + f) with (4 * t + f) in E1, E2 by lia. destruct K as [(-> & ->)|(N & E3 & E4)]; [left; auto|right].
    pose proof (Z.div_mod code 4 ltac:(lia)) as DM. pose proof (Z.mod_pos_bound code 4 ltac:(lia)) as MB.
    exists nt, (code mod 4), (code / 4). replace (nt * 4 + code mod 4) with (4 * nt + code mod 4) in E3, E4 by lia.
    assert (Hd : 0 <= code / 4 < 2) by lia. unfold links. replace (code mod 4 + 4 * (code / 4)) with code by lia.
    split; [|split; [|auto]]; (split; [auto|]); (split; [auto|]); (split; [lia|]); (split; [lia|]); lia.
  Qed.
  Lemma next_link t k y : 0 <= t < c_nt c -> 0 <= k < 4 -> next D2 c (t, k) y <-> exists f nt nf o j, 0 <= f < 4 /\ links c t f nt nf o /\ 0 <= j < 2 /\ k = face_corners D2 f j /\ y = (nt, face_corners D2 nf (Z.lxor j o)).
  Proof.
    intros Ht Hk. unfold next, across_face. cbn [fst snd faces]. change (nd D2) with 2. split.
    - intros (i & f & code & Hi & Ef & E1 & E2 & N & Ek). destruct (proj1 (corner_face_table k f Hk)) as (Hf & j & Hj & Ej); [eauto|].
      destruct (link_valid t f Ht Hf) as [(A & B)|(nt & nf & o & L & _ & _)].
      + rewrite A in E1. rewrite B in E2. apply some_eq in E1, E2. exfalso. apply N. auto.
      + exists f, nt, nf, o, j. split; [auto|]. split; [auto|]. split; [auto|]. split; [auto|]. destruct L as (L1 & L2 & Hn & Ho & _).
        rewrite L1 in E1. rewrite L2 in E2. apply some_eq in E1, E2. subst code. destruct (code_parts nf o Hn ltac:(lia)) as (P & Q). rewrite P, Q in Ek.
        destruct y as (y1 & y2). cbn [fst snd] in *. subst y1 y2 k. f_equal. apply neighbor_table; auto.
    - intros (f & nt & nf & o & j & Hf & (L1 & L2 & Hn & Ho & NL) & Hj & Ej & ->).
      destruct (proj2 (corner_face_table k f Hk)) as (i & Hi & Ef); [eauto|].
      exists i, f, (nf + 4 * o). destruct (code_parts nf o Hn ltac:(lia)) as (P & Q). cbn [fst snd]. rewrite P, Q.
      split; [auto|]. split; [auto|]. split; [auto|]. split; [auto|]. split; [intros (X & Y); apply NL; split; [auto|]; lia|]. subst k. symmetry. apply neighbor_table; auto.
  Qed.
  Lemma next_range x y : inr x -> next D2 c x y -> inr y.
  Proof.
    destruct x as (t & k). intros (Ht & Hk) H. cbn [fst snd children] in *. apply next_link in H as (f & nt & nf & o & j & Hf & L & Hj & _ & ->); auto.
    destruct (link_valid t f Ht Hf) as [(A & B)|(nt' & nf' & o' & L' & _ & R)]; destruct L as (L1 & L2 & Hn & Ho & NL).
    - exfalso. rewrite L1 in A. rewrite L2 in B. apply some_eq in A, B. apply NL. split; [auto|]. lia.
    - destruct L' as (M1 & M2 & _). rewrite L1 in M1. apply some_eq in M1. subst nt'. split; cbn [fst snd children]; [auto|]. apply face_corner_range; [auto|]. apply flip_range; auto.
  Qed.
  Lemma next_sym x y : inr x -> next D2 c x y -> next D2 c y x.
  Proof.
    destruct x as (t & k). intros I H. pose proof (next_range _ _ I H) as Iy. destruct I as (Ht & Hk). cbn [fst snd children] in *.
    apply next_link in H as (f & nt & nf & o & j & Hf & L & Hj & Ek & ->); auto. destruct Iy as (Hy & Hyk). cbn [fst snd children] in *.
    destruct (link_valid t f Ht Hf) as [(A & B)|(nt' & nf' & o' & L' & M & R)]; destruct L as (L1 & L2 & Hn & Ho & NL).
    - exfalso. rewrite L1 in A. rewrite L2 in B. apply some_eq in A, B. apply NL. split; [auto|]. lia.
    - destruct L' as (M1 & M2 & Hn' & Ho' & _). rewrite L1 in M1. rewrite L2 in M2. apply some_eq in M1, M2. subst nt'.
      assert (nf' = nf /\ o' = o) as (-> & ->) by lia. destruct (flip_range j o Hj Ho) as (F1 & F2).
      apply next_link; auto. exists nf, t, f, o, (Z.lxor j o). rewrite F2. split; [auto|]. split; [auto|]. split; [auto|]. split; [auto|]. subst k. reflexivity.
  Qed.
  Lemma store_faces_spec t k : 0 <= t < c_nt c -> 0 <= k < 4 -> exists fs, store_faces D2 c t k (below (dimz D2)) = Some fs /\ forall y, In y fs <-> next D2 c (t, k) y.
  Proof.
    intros Ht Hk.
    assert (G : forall is, (forall i, In i is -> 0 <= i < 2) -> exists fs, store_faces D2 c t k is = Some fs /\
      forall y, In y fs <-> exists i f code, In i is /\ f = corner_faces D2 k i /\ zget (c_ttt c) (4 * t + f) = Some (fst y) /\ zget (c_ttf c) (4 * t + f) = Some code /\ ~ (fst y = t /\ code = f) /\ snd y = face_neighbor_corner D2 k f (code mod 4) (code / 4)).
    { induction is as [|i is IH]; intros R; cbn [store_faces faces]; [exists []; split; [auto|]; intros y; split; [intros []|intros (i & f & code & [] & _)]|].
      destruct IH as (fs & EF & SF); [intros j Ij; apply R; right; auto|]. rewrite EF. pose proof (R i (or_introl eq_refl)) as Hi.
      set (f := corner_faces D2 k i). destruct (proj1 (corner_face_table k f Hk)) as (Hf & _); [exists i; auto|].
      destruct (valid_face_true _ _ _ _ (FV t f Ht Hf)) as (nt & code & E1 & E2 & R1 & R2 & K). cbn [faces half] in *.
      replace (t * 4 + f) with (4 * t + f) in E1, E2 by lia. rewrite E1, E2.
      destruct (dim_div_mod D2 code ltac:(lia)) as (MB & D1 & D2'). cbn [faces] in *. rewrite D1, D2'. pose proof (Z.div_mod code 4 ltac:(lia)) as DM.
      assert (BD : (nt =? t) && (code mod 4 =? f) = true <-> nt = t /\ code = f).
      { destruct K as [(-> & ->)|(N & _)]; [|lia]. rewrite Z.mod_small by lia. lia. }
      eexists. split; [reflexivity|]. intros y. destruct ((nt =? t) && (code mod 4 =? f)).
      - destruct (proj1 BD eq_refl) as (-> & ->). rewrite SF. split.
        + intros (i' & f' & code' & I & X). exists i', f', code'. split; [right; auto|auto].
        + intros (i' & f' & code' & [<-|I] & Ef & X1 & X2 & NX & X3); [|exists i', f', code'; auto 10]. subst f'. fold f in X1, X2, NX. rewrite E1 in X1. rewrite E2 in X2. apply some_eq in X1, X2. exfalso. apply NX. auto.
      - cbn [In]. rewrite SF. split.
        + intros [<-|(i' & f' & code' & I & X)]; [|exists i', f', code'; split; [right; auto|auto]]. exists i, f, code. cbn [fst snd]. split; [left; auto|]. split; [auto|]. split; [auto|]. split; [auto|]. split; [|auto]. intros B. apply BD in B. discriminate.
        + intros (i' & f' & code' & [<-|I] & Ef & X1 & X2 & NX & X3); [|right; exists i', f', code'; auto 10]. left. subst f'. fold f in X1, X2, X3. rewrite E1 in X1. rewrite E2 in X2. apply some_eq in X1, X2. subst code'. destruct y. cbn [fst snd] in *. congruence. }
    destruct (G (below 2)) as (fs & E & S); [intros i; apply below_in|]. exists fs. split; [exact E|]. intros y. rewrite S. unfold next, across_face. cbn [fst snd faces]. change (nd D2) with 2. split.
    - intros (i & f & code & I & X). exists i, f, code. split; [apply below_in; auto|tauto].
    - intros (i & f & code & I & X). exists i, f, code. split; [apply below_in; auto|tauto].
  Qed.
End TwoD.

(** ** meet is an equivalence *)
Section Meet.
  Variables (c : conn) (gs : list (list (Z * Z))).
  Hypothesis FV : forall t f, 0 <= t < c_nt c -> 0 <= f < 4 -> valid_face D2 c t f = Some true.
  Hypothesis ST : stores D2 c gs.
  Hypothesis WH : whole D2 c gs.
  Notation inr := (corner_of D2 c).
  Notation M := (meet D2 c gs).

  Lemma group_unique g h x : In g gs -> In h gs -> In x g -> In x h -> g = h.
  Proof.
    intros Ig Ih Xg Xh. destruct (in_index x gs g Xg Ig) as (i & Ei). destruct (in_index x gs h Xh Ih) as (j & Ej).
    pose proof (st_in _ _ _ ST _ _ _ Ei Xg) as A. pose proof (st_in _ _ _ ST _ _ _ Ej Xh) as B. rewrite A in B. apply some_eq in B. subst. congruence.
  Qed.
  Lemma stored_range g x : In g gs -> In x g -> inr x.
  Proof. intros. apply (st_range _ _ _ ST). apply in_concat. eauto. Qed.
  Lemma meet_range x y : inr x -> M x y -> inr y.
  Proof. intros I [<-|[H|(g & Ig & _ & Iy)]]; [auto|eapply next_range; eauto|eapply stored_range; eauto]. Qed.
  Lemma meet_sym x y : inr x -> M x y -> M y x.
  Proof. intros I [<-|[H|(g & Ig & A & B)]]; [left; auto|right; left; eapply next_sym; eauto|right; right; exists g; auto]. Qed.
  (** of a stored corner *)
  Lemma meet_stored g x y : In g gs -> In x g -> M x y <-> In y g.
  Proof.
    intros Ig Ix. split.
    - intros [<-|[H|(h & Ih & A & B)]]; [auto|eapply (proj1 WH); eauto|]. rewrite (group_unique g h x); auto.
    - intros Iy. right. right. exists g. auto.
  Qed.
  Lemma meet_trans x y z : inr x -> M x y -> M y z -> M x z.
  Proof.
    intros I A B. destruct (in_dec pdec x (concat gs)) as [J|J].
    - apply in_concat in J as (g & Ig & Ix). apply (meet_stored g x z Ig Ix). apply (meet_stored g x y Ig Ix) in A. apply (meet_stored g y z Ig A). auto.
    - destruct A as [<-|[A|(g & Ig & Ix & _)]]; [auto| |exfalso; apply J; apply in_concat; eauto].
      destruct B as [<-|[B|(g & Ig & Iy & Iz)]]; [right; left; auto| |].
      + destruct (proj2 WH x y z I J A B) as [->|]; [left; auto|right; left; auto].
      + exfalso. apply J. apply in_concat. exists g. split; [auto|]. eapply (proj1 WH); [exact Ig|exact Iy|]. eapply next_sym; eauto.
  Qed.
End Meet.

(** ** storing and combining *)
Definition only_corners (c c' : conn) : Prop := exists nc a b e g, c' = set_corners c nc a b e g.
Lemma only_trans a b c : only_corners a b -> only_corners b c -> only_corners a c.
Proof. intros (n & p & q & r & s & ->) (n' & p' & q' & r' & s' & ->). exists n', p', q', r', s'. reflexivity. Qed.

Section Steps.
  Variable c : conn.
  Hypothesis FV : forall t f, 0 <= t < c_nt c -> 0 <= f < 4 -> valid_face D2 c t f = Some true.
  Notation inr := (corner_of D2 c).

  (** what holds between the steps *)
  Record state (c1 : conn) (gs : list (list (Z * Z))) : Prop := { s_only : only_corners c c1 \/ c1 = c; s_st : stores D2 c1 gs; s_wh : whole D2 c gs }.

  Lemma state_next c1 : only_corners c c1 \/ c1 = c -> next D2 c1 = next D2 c /\ c_nt c1 = c_nt c /\ (forall t f, valid_face D2 c1 t f = valid_face D2 c t f).
  Proof. intros [(a & b & e & g & h & ->)| ->]; auto. Qed.
  Lemma state_stored c1 gs x : state c1 gs -> inr x -> In x (concat gs) <-> unstored D2 c1 (fst x) (snd x) = Some false.
  Proof.
    intros [O S W] I. destruct (state_next c1 O) as (_ & NTE & _). unfold unstored. destruct (c_ttc c1) as [|a l] eqn:E.
    - rewrite (st_null _ _ _ S E). cbn. split; [intros []|discriminate].
    - rewrite <- E. assert (NN : c_ttc c1 <> []) by (rewrite E; discriminate). split.
      + intros J. apply in_concat in J as (g & Ig & Ix). destruct (in_index x gs g Ix Ig) as (j & Ej). rewrite (st_in _ _ _ S _ _ _ Ej Ix). pose proof (zget_range _ _ _ Ej). f_equal. lia.
      + intros U. destruct (in_dec pdec x (concat gs)) as [J|J]; [auto|]. destruct I as (I1 & I2). rewrite (st_out _ _ _ S x NN) in U by (rewrite ?NTE; auto). discriminate.
  Qed.

  Lemma ensure_state c1 gs x : state c1 gs -> inr x -> exists c2 gs2, ensure_corner D2 c1 (fst x) (snd x) = Some c2 /\ state c2 gs2 /\ c_ttc c2 <> [] /\ In x (concat gs2) /\
    (forall y, In y (concat gs) -> In y (concat gs2)) /\ (forall u v, inr u -> meet D2 c gs2 u v <-> meet D2 c gs u v).
  Proof.
    intros SS I. pose proof SS as [O S W]. destruct (state_next c1 O) as (NX & NTE & VE). unfold ensure_corner. destruct (in_dec pdec x (concat gs)) as [J|J].
    - rewrite (proj1 (state_stored c1 gs x SS I) J). exists c1, gs. split; [auto|]. split; [auto|]. split; [|split; [auto|split; [auto|tauto]]].
      intros E. rewrite (st_null _ _ _ S E) in J. destruct J.
    - assert (U : unstored D2 c1 (fst x) (snd x) = Some true).
      { unfold unstored. destruct (c_ttc c1) as [|a l] eqn:E; [auto|]. rewrite <- E. destruct I as (I1 & I2). rewrite (st_out _ _ _ S x) by (rewrite ?E, ?NTE; auto; discriminate). reflexivity. }
      rewrite U. assert (FV1 : forall t f, 0 <= t < c_nt c1 -> 0 <= f < 4 -> valid_face D2 c1 t f = Some true) by (intros; rewrite VE; apply FV; auto; lia).
      assert (HX : 0 <= fst x < c_nt c1 /\ 0 <= snd x < 4) by (rewrite NTE; exact I). destruct HX as (X1 & X2).
      destruct (store_faces_spec c1 FV1 (fst x) (snd x) X1 X2) as (fs & EF & SF).
      assert (SF' : forall y, In y fs <-> next D2 c x y) by (intros y; rewrite SF, NX; destruct x; reflexivity).
      set (tc := (fst x, snd x) :: fs ++ []).
      assert (TC : forall y, In y tc <-> y = x \/ next D2 c x y).
      { intros y. unfold tc. cbn [In]. rewrite app_nil_r, SF'. destruct x; cbn [fst snd]. intuition. }
      assert (UN : forall y, In y tc -> ~ In y (concat gs)).
      { intros y Iy K. apply TC in Iy as [->|Iy]; [auto|]. apply in_concat in K as (g & Ig & Yg). apply J. apply in_concat. exists g. split; [auto|]. eapply (proj1 W); [exact Ig|exact Yg|]. eapply next_sym; eauto. }
      destruct (store_stores D2 c1 gs S ltac:(lia) (fst x) (snd x) fs [] EF eq_refl) as (ttc & off & ts & cs & E & S2 & NN).
      { intros y Iy. fold tc in Iy. split; [|apply UN; auto]. rewrite NTE. apply TC in Iy as [->|Iy]; [exact I|]. eapply next_range; eauto. }
      fold tc in S2. set (c2 := set_corners c1 (zlen gs + 1) ttc off ts cs) in *. exists c2, (gs ++ [sort_uniq tc]). split; [exact E|].
      assert (CC : forall y, In y (concat (gs ++ [sort_uniq tc])) <-> In y (concat gs) \/ In y tc) by (intros y; rewrite concat_app, in_app_iff; cbn [concat]; rewrite app_nil_r, sort_uniq_in; tauto).
      assert (CL : forall y z, In y tc -> next D2 c y z -> In z tc).
      { intros y z Iy N. apply TC. apply TC in Iy as [->|Iy]; [auto|]. apply (proj2 W x y z); auto. }
      split; [constructor|].
      + left. assert (OC : only_corners c1 c2) by (repeat eexists). destruct O as [O|O]; [eapply only_trans; eauto|rewrite O in OC; exact OC].
      + exact S2.
      + split.
        * intros g y z Ig Iy N. apply in_app_or in Ig as [Ig|[<-|[]]]; [eapply (proj1 W); eauto|]. rewrite sort_uniq_in. rewrite sort_uniq_in in Iy. eapply CL; eauto.
        * intros y z w Iy NY. apply (proj2 W); auto. intros K. apply NY. apply CC. auto.
      + split; [exact NN|]. split; [apply CC; right; apply TC; auto|]. split; [intros y K; apply CC; auto|].
        intros u v Iu. unfold meet. split; (intros [A|[A|A]]; [auto|auto|]).
        * destruct A as (g & Ig & A & B). apply in_app_or in Ig as [Ig|[<-|[]]]; [right; right; exists g; auto|]. rewrite sort_uniq_in in A, B.
          apply TC in B. apply TC in A as [->|A]; [destruct B as [->|B]; auto|].
          assert (A' : next D2 c u x) by (apply (next_sym c FV x u); auto).
          destruct B as [->|B]; [auto|].
          assert (NU : ~ In u (concat gs)) by (apply UN; apply TC; auto).
          destruct (proj2 W u x v Iu NU A' B) as [->|]; auto.
        * right. right. destruct A as (g & Ig & A). exists g. split; [apply in_or_app; auto|auto].
  Qed.

  Definition joined (R : Z * Z -> Z * Z -> Prop) (x y u v : Z * Z) : Prop := R u v \/ R u x /\ R y v \/ R u y /\ R x v.

  Lemma merge_state c1 A g0 B g1 C x y : let gs := A ++ g0 :: B ++ g1 :: C in state c1 gs -> c_ttc c1 <> [] -> In x g0 -> In y g1 ->
    exists c2 gs2, merge_corners D2 c1 (zlen A) (zlen A + 1 + zlen B) = Some c2 /\ state c2 gs2 /\ c_ttc c2 <> [] /\
    (forall w, In w (concat gs) <-> In w (concat gs2)) /\ (forall u v, inr u -> meet D2 c gs2 u v <-> joined (meet D2 c gs) x y u v).
  Proof.
    intros gs SS NN Ix Iy. pose proof SS as [O S W]. destruct (state_next c1 O) as (NX & NTE & VE).
    destruct (merge_stores D2 c1 A g0 B g1 C S NN) as (ttc & off & ts & cs & E & S2 & N2). set (c2 := set_corners c1 (c_nc c1) ttc off ts cs) in *. set (gs2 := A ++ (g0 ++ g1) :: B ++ [] :: C) in *.
    exists c2, gs2. split; [exact E|].
    assert (G : forall g, In g gs <-> In g A \/ g = g0 \/ In g B \/ g = g1 \/ In g C) by (intros g; unfold gs; rewrite in_app_iff; cbn [In]; rewrite in_app_iff; cbn [In]; intuition).
    assert (G2 : forall g, In g gs2 <-> In g A \/ g = g0 ++ g1 \/ In g B \/ g = [] \/ In g C) by (intros g; unfold gs2; rewrite in_app_iff; cbn [In]; rewrite in_app_iff; cbn [In]; intuition).
    assert (CC : forall w, In w (concat gs) <-> In w (concat gs2)).
    { intros w. unfold gs, gs2. rewrite !concat_app, !in_app_iff. cbn [concat]. rewrite !in_app_iff, !concat_app, !in_app_iff. cbn [concat]. rewrite !in_app_iff. cbn [In]. tauto. }
    assert (I0 : In g0 gs) by (apply G; auto). assert (I1 : In g1 gs) by (apply G; auto 6).
    assert (TG : forall u v, together gs2 u v <-> together gs u v \/ In u g0 /\ In v g1 \/ In u g1 /\ In v g0).
    { intros u v. unfold together. split.
      - intros (g & Ig & P & Q). apply G2 in Ig as [Ig|[->|[Ig|[->|Ig]]]]; try (left; exists g; split; [apply G; auto 8|auto]; fail); [|destruct P].
        apply in_app_or in P. apply in_app_or in Q. destruct P as [P|P], Q as [Q|Q]; auto; left; [exists g0|exists g1]; auto.
      - intros [(g & Ig & P & Q)|[(P & Q)|(P & Q)]].
        + apply G in Ig as [Ig|[->|[Ig|[->|Ig]]]]; try (exists g; split; [apply G2; auto 8|auto]; fail); exists (g0 ++ g1); (split; [apply G2; auto|split; apply in_or_app; auto]).
        + exists (g0 ++ g1). split; [apply G2; auto|split; apply in_or_app; auto].
        + exists (g0 ++ g1). split; [apply G2; auto|split; apply in_or_app; auto]. }
    assert (FV1 : forall t f, 0 <= t < c_nt c1 -> 0 <= f < 4 -> valid_face D2 c1 t f = Some true) by (intros; rewrite VE; apply FV; auto; lia).
    assert (W1 : whole D2 c1 gs).
    { destruct W as (Wa & Wb). split; [intros g u v; rewrite NX; apply Wa|]. intros u v w P. rewrite NX. apply Wb. destruct P as (P1 & P2). rewrite NTE in P1. split; auto. }
    assert (MS : forall g u v, In g gs -> In u g -> meet D2 c gs u v <-> In v g).
    { intros g u v Ig Iu. pose proof (meet_stored c1 gs S W1 g u v Ig Iu) as Z. unfold meet in *. rewrite NX in Z. exact Z. }
    assert (SY : forall u v, inr u -> meet D2 c gs u v -> meet D2 c gs v u).
    { intros u v P Q. pose proof (meet_sym c1 gs FV1 u v) as Z. unfold meet, corner_of in *. rewrite NX, NTE in Z. auto. }
    assert (RG : forall g u, In g gs -> In u g -> inr u).
    { intros g u P Q. pose proof (stored_range c1 gs S g u P Q) as Z. unfold corner_of in *. rewrite NTE in Z. auto. }
    split; [constructor|].
    - left. assert (OC : only_corners c1 c2) by (repeat eexists). destruct O as [O|O]; [eapply only_trans; eauto|rewrite O in OC; exact OC].
    - exact S2.
    - destruct W as (Wa & Wb). split.
      + intros g u v Ig P N. apply G2 in Ig as [Ig|[->|[Ig|[->|Ig]]]]; try (apply (Wa g u v); [apply G; auto 8|exact P|exact N]; fail).
        * apply in_or_app. apply in_app_or in P as [P|P]; [left|right]; eapply Wa; eauto.
        * destruct P.
      + intros u v w P N. apply Wb; auto. intros K. apply N. apply CC. auto.
    - split; [exact N2|]. split; [exact CC|]. intros u v Iu. unfold joined. unfold meet at 1. rewrite TG.
      assert (X : forall w, inr w -> meet D2 c gs w x <-> In w g0) by (intros w Iw; split; [intros H; apply (MS g0 x w I0 Ix); apply SY; auto|intros H; apply (MS g0 w x I0 H); auto]).
      assert (Y : forall w, inr w -> meet D2 c gs w y <-> In w g1) by (intros w Iw; split; [intros H; apply (MS g1 y w I1 Iy); apply SY; auto|intros H; apply (MS g1 w y I1 H); auto]).
      rewrite (X u Iu), (Y u Iu), (MS g0 x v I0 Ix), (MS g1 y v I1 Iy). unfold meet. tauto.
  Qed.

  Lemma join_state c1 gs x y : state c1 gs -> inr x -> inr y -> exists c2 gs2, join_corners D2 c1 (fst x) (fst y) (snd x) (snd y) = Some c2 /\ state c2 gs2 /\ c_ttc c2 <> [] /\
    In x (concat gs2) /\ In y (concat gs2) /\ (forall w, In w (concat gs) -> In w (concat gs2)) /\ (forall u v, inr u -> meet D2 c gs2 u v <-> joined (meet D2 c gs) x y u v).
  Proof.
    intros SS Ix Iy. unfold join_corners.
    destruct (ensure_state c1 gs x SS Ix) as (c2 & gs2 & E2 & S2 & N2 & X2 & U2 & M2). rewrite E2.
    destruct (ensure_state c2 gs2 y S2 Iy) as (c3 & gs3 & E3 & S3 & N3 & Y3 & U3 & M3). rewrite E3.
    assert (X3 : In x (concat gs3)) by auto. pose proof X3 as X3'. pose proof Y3 as Y3'. apply in_concat in X3' as (g0 & G0 & P0). apply in_concat in Y3' as (g1 & G1 & P1).
    destruct (in_index x gs3 g0 P0 G0) as (a & Ea). destruct (in_index y gs3 g1 P1 G1) as (b & Eb). pose proof S3 as [O3 ST3 W3].
    pose proof (st_in _ _ _ ST3 _ _ _ Ea P0) as Za. pose proof (st_in _ _ _ ST3 _ _ _ Eb P1) as Zb. rewrite Za, Zb.
    assert (MM : forall u v, inr u -> meet D2 c gs3 u v <-> meet D2 c gs u v) by (intros u v Iu; rewrite M3, M2 by auto; tauto).
    destruct (state_next c3 O3) as (NX & NTE & VE).
    assert (JJ : forall p q, inr p -> inr q -> forall u v, inr u -> joined (meet D2 c gs3) p q u v <-> joined (meet D2 c gs) p q u v) by (intros p q Ip Iq u v Iu; unfold joined; rewrite !MM by auto; tauto).
    destruct (a =? b) eqn:AB.
    - assert (a = b) by lia. subst b. assert (g0 = g1) by congruence. subst g1.
      exists c3, gs3. split; [auto|]. split; [auto|]. split; [auto|]. split; [auto|]. split; [auto|]. split; [auto|]. intros u v Iu. rewrite <- JJ by auto. unfold joined.
      assert (FV1 : forall t f, 0 <= t < c_nt c3 -> 0 <= f < 4 -> valid_face D2 c3 t f = Some true) by (intros; rewrite VE; apply FV; auto; lia).
      assert (W1 : whole D2 c3 gs3).
      { destruct W3 as (Wa & Wb). split; [intros g p q; rewrite NX; apply Wa|]. intros p q w P. rewrite NX. apply Wb. destruct P as (Q1 & Q2). rewrite NTE in Q1. split; auto. }
      assert (MXY : meet D2 c gs3 x y) by (right; right; exists g0; auto). assert (MYX : meet D2 c gs3 y x) by (right; right; exists g0; auto).
      assert (TR : forall p q w, inr p -> meet D2 c gs3 p q -> meet D2 c gs3 q w -> meet D2 c gs3 p w).
      { intros p q w Ip. pose proof (meet_trans c3 gs3 FV1 ST3 W1 p q w) as Z. unfold meet, corner_of in *. rewrite NX, NTE in Z. auto. }
      split; [auto|]. intros [H|[(H & K)|(H & K)]]; [auto| |].
      + apply (TR u x v Iu H). apply (TR x y v); auto.
      + apply (TR u y v Iu H). apply (TR y x v); auto.
    - destruct (a <? b) eqn:LT.
      + rewrite Z.min_l, Z.max_r by lia. destruct (zsplit_at _ _ _ Ea) as (A & R & GE & LA). rewrite GE in Eb. rewrite zg_app2, zget_cons in Eb by lia.
        destruct (zsplit_at _ _ _ Eb) as (B & C & -> & LB). subst gs3.
        destruct (merge_state c3 A g0 B g1 C x y S3 N3 P0 P1) as (c4 & gs4 & E4 & S4 & N4 & C4 & M4).
        replace (zlen A + 1 + zlen B) with b in E4 by lia. rewrite LA in E4. exists c4, gs4. split; [auto|]. split; [auto|]. split; [auto|]. split; [apply C4; auto|]. split; [apply C4; auto|]. split; [intros w K; apply C4; auto|].
        intros u v Iu. rewrite M4 by auto. apply JJ; auto.
      + rewrite Z.min_r, Z.max_l by lia. destruct (zsplit_at _ _ _ Eb) as (A & R & GE & LA). rewrite GE in Ea. rewrite zg_app2, zget_cons in Ea by lia.
        destruct (zsplit_at _ _ _ Ea) as (B & C & -> & LB). subst gs3.
        destruct (merge_state c3 A g1 B g0 C y x S3 N3 P1 P0) as (c4 & gs4 & E4 & S4 & N4 & C4 & M4).
        replace (zlen A + 1 + zlen B) with a in E4 by lia. rewrite LA in E4. exists c4, gs4. split; [auto|]. split; [auto|]. split; [auto|]. split; [apply C4; auto|]. split; [apply C4; auto|]. split; [intros w K; apply C4; auto|].
        intros u v Iu. rewrite M4 by auto. rewrite JJ by auto. unfold joined. tauto.
  Qed.
End Steps.
