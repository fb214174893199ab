(** * p4est_connectivity_complete: the faces *)

From Coq Require Import ZArith List Bool Lia ZifyBool Permutation.
From Verif Require Import Quad Neighbor Transform Partition Conn ConnLemmas Permute PermuteArray ConnComplete ConnCompleteArray.
Import ListNotations.
Open Scope Z_scope.

Lemma first_pos_spec v l : forall r, In v l -> r <= first_pos v l r < r + zlen l /\ zget l (first_pos v l r - r) = Some v.
Proof.
  induction l as [|x l IH]; intros r I; [destruct I|]. cbn [first_pos].
  assert (L : zlen (x :: l) = 1 + zlen l) by (unfold zlen; cbn [length]; lia). pose proof (zlen0 l).
  destruct (v =? x) eqn:E.
  - rewrite Z.sub_diag. split; [lia|]. cbn. f_equal. lia.
  - destruct I as [->|I]; [lia|]. destruct (IH (r + 1) I) as (A & B). split; [lia|]. rewrite zget_cons by lia. rewrite <- B. f_equal. lia.
Qed.

Lemma fverts_get d ttv x i : 0 <= i < half d -> zget (fverts d ttv x) i = Some (vtx d ttv (fst x) (face_corners d (snd x) i)).
Proof.
  intros H. unfold fverts. rewrite map_zget. unfold below. rewrite map_zget, zg by lia.
  rewrite (nth_error_nth' _ 0%nat) by (rewrite seq_length; destruct d; cbn [half] in *; lia). rewrite seq_nth by (destruct d; cbn [half] in *; lia).
  cbn [option_map]. do 3 f_equal. lia.
Qed.
Lemma fverts_len d ttv x : zlen (fverts d ttv x) = half d.
Proof. destruct d; reflexivity. Qed.
Lemma fverts_first d ttv x : nget (fverts d ttv x) 0 = vtx d ttv (fst x) (face_corners d (snd x) 0).
Proof. destruct d; reflexivity. Qed.

(** the position that the code takes as orientation *)
Lemma forient_spec d ttv y x : Permutation (fverts d ttv y) (fverts d ttv x) ->
  0 <= forient d ttv y x < half d /\
  let p := if snd y <=? snd x then y else x in let s := if snd y <=? snd x then x else y in
  vtx d ttv (fst s) (face_corners d (snd s) (forient d ttv y x)) = vtx d ttv (fst p) (face_corners d (snd p) 0).
Proof.
  intros P. unfold forient. cbv zeta. set (p := if snd y <=? snd x then y else x). set (s := if snd y <=? snd x then x else y).
  assert (Q : Permutation (fverts d ttv p) (fverts d ttv s)) by (unfold p, s; destruct (snd y <=? snd x); [auto|apply Permutation_sym; auto]).
  rewrite fverts_first.
  assert (I : In (vtx d ttv (fst p) (face_corners d (snd p) 0)) (fverts d ttv s)).
  { eapply Permutation_in; [exact Q|]. eapply zget_in. apply (fverts_get d ttv p 0). destruct d; cbn; lia. }
  destruct (first_pos_spec _ _ 0 I) as (A & B). rewrite fverts_len in A. split; [lia|].
  rewrite Z.sub_0_r, fverts_get in B by lia. congruence.
Qed.

Section Faces.
  Variables (d : dim) (ttv : list Z) (nt : Z).
  Local Notation L := (all_faces d nt).
  Local Notation K := (fkey d ttv).
  Definition fidx (x : Z * Z) : Z := faces d * fst x + snd x.

  (** no three faces have the same vertices *)
  Hypothesis TW : forall x y z, In x L -> In y L -> In z L -> K x = K y -> K x = K z -> x <> y -> x <> z -> y = z.

  Lemma L_in x : In x L <-> 0 <= fst x < nt /\ 0 <= snd x < faces d.
  Proof. destruct x as [t f]. unfold all_faces. rewrite in_prod_iff, !below_in. reflexivity. Qed.
  Lemma fidx_range x : In x L -> 0 <= fidx x < nt * faces d.
  Proof. rewrite L_in. unfold fidx. destruct d; cbn [faces]; lia. Qed.
  Lemma fidx_inj x y : In x L -> In y L -> fidx x = fidx y -> x = y.
  Proof. rewrite !L_in. unfold fidx. destruct x, y. cbn [fst snd]. intros A B E. assert (z = z1 /\ z0 = z2) as [-> ->] by (destruct d; cbn [faces] in *; lia). auto. Qed.

  Variables (ttt ttf : list Z).
  Hypothesis L1 : zlen ttt = nt * faces d.
  Hypothesis L2 : zlen ttf = nt * faces d.

  Definition linked (tt' tf' : list Z) (x y : Z * Z) : Prop := exists r, (r = forient d ttv x y \/ r = forient d ttv y x) /\
    zget tt' (fidx x) = Some (fst y) /\ zget tt' (fidx y) = Some (fst x) /\
    zget tf' (fidx x) = Some (faces d * r + snd y) /\ zget tf' (fidx y) = Some (faces d * r + snd x).

  Definition Inv (P : list (Z * Z)) (st : list (list Z * (Z * Z)) * list Z * list Z) : Prop :=
    let '(ha, a, b) := st in
    (forall k y, hlookup k ha = Some y -> In y P /\ K y = k) /\
    (forall k, hlookup k ha = None -> forall y, In y P -> K y <> k) /\
    zlen a = nt * faces d /\ zlen b = nt * faces d /\
    (forall x y, In x P -> In y P -> x <> y -> K x = K y -> linked a b x y) /\
    (forall x, In x L -> (In x P -> forall y, In y P -> x <> y -> K x <> K y) -> zget a (fidx x) = zget ttt (fidx x) /\ zget b (fidx x) = zget ttf (fidx x)).

  Lemma step P x st : incl P L -> In x L -> ~ In x P -> Inv P st -> Inv (P ++ [x]) (face_step d ttv st x).
  Proof.
    destruct st as [[ha a] b]. intros IP Ix NI (H1 & H2 & LA & LB & LK & UN). cbn [face_step]. destruct (hlookup (K x) ha) as [y|] eqn:HL.
    - destruct (H1 _ _ HL) as (Iy & Ky). fold (fidx x). fold (fidx y).
      assert (Ry := fidx_range y (IP y Iy)). assert (Rx := fidx_range x Ix).
      assert (NE : x <> y) by (intros ->; auto). assert (NF : fidx x <> fidx y) by (intros E; apply NE, fidx_inj; auto).
      assert (LA1 : zlen (put a (fidx y) (fst x)) = nt * faces d) by (rewrite zlen_put; lia).
      assert (LB1 : forall v, zlen (put b (fidx y) v) = nt * faces d) by (intros v; rewrite zlen_put; lia).
      assert (GA : forall i, zget (put (put a (fidx y) (fst x)) (fidx x) (fst y)) i = if i =? fidx x then Some (fst y) else if i =? fidx y then Some (fst x) else zget a i)
        by (intros i; rewrite get_put, get_put by lia; reflexivity).
      assert (GB : forall u v i, zget (put (put b (fidx y) u) (fidx x) v) i = if i =? fidx x then Some v else if i =? fidx y then Some u else zget b i)
        by (intros u v i; rewrite get_put, get_put by (rewrite ?LB1; lia); reflexivity).
      assert (XY : forall p q, zget p (fidx x) = Some (fst y) -> zget p (fidx y) = Some (fst x) -> zget q (fidx x) = Some (faces d * forient d ttv y x + snd y) ->
                   zget q (fidx y) = Some (faces d * forient d ttv y x + snd x) -> linked p q x y /\ linked p q y x).
      { intros p q A B C D. split; exists (forient d ttv y x); repeat split; auto. }
      split; [intros k z E; destruct (H1 _ _ E); split; [apply in_or_app|]; auto|].
      split; [intros k E z Iz Kz; apply in_app_or in Iz as [Iz|[<-|[]]]; [eapply H2; eauto|congruence]|].
      split; [rewrite zlen_put; lia|]. split; [rewrite zlen_put; rewrite ?LB1; lia|]. split.
      + intros u v Iu Iv NUV EK.
        assert (D1 : forall w, In w P -> K w = K x -> w = y) by (intros w Iw Kw; apply (TW x w y); auto; intros E; apply NI; congruence).
        assert (LXY := XY (put (put a (fidx y) (fst x)) (fidx x) (fst y)) (put (put b (fidx y) (faces d * forient d ttv y x + snd x)) (fidx x) (faces d * forient d ttv y x + snd y))).
        rewrite !GA, !GB, !Z.eqb_refl in LXY. replace (fidx y =? fidx x) with false in LXY by lia. specialize (LXY eq_refl eq_refl eq_refl eq_refl). destruct LXY as [LX LY].
        apply in_app_or in Iu as [Iu|[<-|[]]]; apply in_app_or in Iv as [Iv|[<-|[]]].
        * destruct (LK u v Iu Iv NUV EK) as (r & R & X1 & X2 & X3 & X4). exists r. split; [exact R|]. rewrite !GA, !GB.
          assert (Q : forall w, In w P -> In w [u; v] -> fidx w =? fidx x = false /\ fidx w =? fidx y = false).
          { intros w Iw Iw2. assert (fidx w <> fidx x) by (intros E; apply NI; rewrite <- (fidx_inj w x); auto).
            assert (fidx w <> fidx y); [|lia]. intros E. assert (w = y) by (apply fidx_inj; auto). subst w.
            destruct Iw2 as [E2|[E2|[]]]; subst; apply NUV; [symmetry|]; apply D1; auto; congruence. }
          destruct (Q u Iu) as [-> ->]; [cbn; auto|]. destruct (Q v Iv) as [-> ->]; [cbn; auto|]. auto.
        * assert (u = y) by (apply D1; auto). subst u. exact LY.
        * assert (v = y) by (apply D1; auto). subst v. exact LX.
        * congruence.
      + intros u Iu Hu. rewrite GA, GB.
        assert (u <> x). { intros ->. apply (Hu ltac:(apply in_or_app; right; left; auto) y); [apply in_or_app; auto|auto|congruence]. }
        assert (u <> y). { intros ->. apply (Hu ltac:(apply in_or_app; auto) x); [apply in_or_app; right; left; auto|auto|congruence]. }
        assert (fidx u <> fidx x) by (intros E; apply fidx_inj in E; auto). assert (fidx u <> fidx y) by (intros E; apply fidx_inj in E; auto).
        replace (fidx u =? fidx x) with false by lia. replace (fidx u =? fidx y) with false by lia. apply UN; [auto|]. intros Iu2 v Iv. apply (Hu ltac:(apply in_or_app; auto) v). apply in_or_app; auto.
    - split; [intros k y E|split; [intros k E y Iy|]].
      + rewrite hlookup_app in E. destruct (hlookup k ha) as [z|] eqn:F.
        * injection E as <-. destruct (H1 _ _ F). split; [apply in_or_app|]; auto.
        * destruct (list_eqb (K x) k) eqn:G; [|discriminate]. injection E as <-. apply list_eqb_eq in G. split; [apply in_or_app; right; left|]; auto.
      + rewrite hlookup_app in E. destruct (hlookup k ha) as [z|] eqn:F; [discriminate|]. destruct (list_eqb (K x) k) eqn:G; [discriminate|].
        apply in_app_or in Iy as [Iy|[<-|[]]]; [apply (H2 k F); auto|]. intros E2. rewrite E2, list_eqb_refl in G. discriminate.
      + split; [auto|]. split; [auto|]. pose proof (H2 _ HL) as NK. split.
        * intros u v Iu Iv NUV EK. apply in_app_or in Iu as [Iu|[<-|[]]]; apply in_app_or in Iv as [Iv|[<-|[]]]; [auto|exfalso; apply (NK u); auto|exfalso; apply (NK v); auto|congruence].
        * intros u Iu Hu. apply UN; [auto|]. intros Iu2 v Iv. apply Hu; apply in_or_app; auto.
  Qed.

  Lemma run S : forall P st, NoDup (P ++ S) -> incl (P ++ S) L -> Inv P st -> Inv (P ++ S) (fold_left (face_step d ttv) S st).
  Proof.
    induction S as [|x S IH]; intros P st N I H; cbn [fold_left]; [rewrite app_nil_r; auto|].
    replace (P ++ x :: S) with ((P ++ [x]) ++ S) in * by (rewrite <- app_assoc; reflexivity). apply IH; auto. apply step; auto.
    - intros y Iy. apply I, in_or_app. left. apply in_or_app. auto.
    - apply I, in_or_app. left. apply in_or_app. right. left. auto.
    - intros Ix. clear -N Ix. rewrite <- app_assoc in N. apply NoDup_remove_2 in N. apply N, in_or_app. auto.
  Qed.

  Lemma L_nodup : NoDup L.
  Proof. apply prod_nodup; apply below_nodup. Qed.
End Faces.

(** the links of the result: a face is linked to the other face with the same vertices, and left
    alone if there is none *)
Lemma face_phase_spec d ttv c :
  zlen (c_ttt c) = c_nt c * faces d -> zlen (c_ttf c) = c_nt c * faces d ->
  (forall x y z, In x (all_faces d (c_nt c)) -> In y (all_faces d (c_nt c)) -> In z (all_faces d (c_nt c)) ->
     fkey d ttv x = fkey d ttv y -> fkey d ttv x = fkey d ttv z -> x <> y -> x <> z -> y = z) ->
  exists ttt ttf, face_phase d ttv c = (ttt, ttf) /\ zlen ttt = c_nt c * faces d /\ zlen ttf = c_nt c * faces d /\
    (forall x y, In x (all_faces d (c_nt c)) -> In y (all_faces d (c_nt c)) -> x <> y -> fkey d ttv x = fkey d ttv y -> linked d ttv ttt ttf x y) /\
    (forall x, In x (all_faces d (c_nt c)) -> (forall y, In y (all_faces d (c_nt c)) -> x <> y -> fkey d ttv x <> fkey d ttv y) ->
       zget ttt (fidx d x) = zget (c_ttt c) (fidx d x) /\ zget ttf (fidx d x) = zget (c_ttf c) (fidx d x)).
Proof.
  intros L1 L2 TW. unfold face_phase.
  pose proof (run d ttv (c_nt c) TW (c_ttt c) (c_ttf c) (all_faces d (c_nt c)) [] ([], c_ttt c, c_ttf c)) as R. cbn [app] in R.
  destruct (fold_left (face_step d ttv) (all_faces d (c_nt c)) ([], c_ttt c, c_ttf c)) as [[ha ttt] ttf].
  destruct R as (_ & _ & A & B & C & D).
  - apply L_nodup.
  - intros x; auto.
  - cbn. split; [discriminate|]. split; [intros k _ y []|]. split; [auto|]. split; [auto|]. split; [intros x y []|auto].
  - exists ttt, ttf. repeat split; auto; apply D; auto.
Qed.
