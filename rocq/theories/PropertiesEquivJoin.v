(** * Property C73: joining faces in another order gives an equivalent connectivity *)

From Coq Require Import ZArith List Bool Lia ZifyBool Permutation Sorted Relations.
From Verif Require Import Quad Spec Neighbor Transform Partition Conn ConnLemmas ConnBounds Permute PermuteArray ConnComplete ConnCompleteArray ConnCompleteCorners PropertiesConn Join JoinArray JoinCorners JoinFaces PropertiesJoin Equiv PropertiesEquiv.
Import ListNotations.
Open Scope Z_scope.

(** ** joining faces in another order *)
Lemma meet_numbers c gs x y : allocated D2 c -> stores D2 c gs -> corner_of D2 c x -> corner_of D2 c y -> meet D2 c gs x y <-> corners_meet D2 c x y.
Proof.
  intros AL ST (X1 & X2) (Y1 & Y2). cbn [children] in *.
  assert (TG : together gs x y <-> numbered_alike D2 c x y).
  { split.
    - intros (g & Ig & Xg & Yg). destruct (in_index x gs g Xg Ig) as (j & Ej). pose proof (zget_range _ _ _ Ej) as Rj. split; [rewrite (st_nc _ _ _ ST); lia|].
      exists j. split; [lia|]. split; eapply (st_in _ _ _ ST); eauto.
    - intros (P & a & N & E1 & E2). assert (NN : c_ttc c <> []) by (intros Q; rewrite Q in E1; unfold zget in E1; destruct (_ <? 0); [discriminate|]; destruct (Z.to_nat _); discriminate).
      assert (K : forall z, 0 <= fst z < c_nt c -> 0 <= snd z < 4 -> zget (c_ttc c) (children D2 * fst z + snd z) = Some a -> exists g, zget gs a = Some g /\ In z g).
      { intros z Z1 Z2 E. destruct (in_dec pdec z (concat gs)) as [I|I].
        - apply in_concat in I as (g & Ig & Zg). destruct (in_index z gs g Zg Ig) as (j & Ej). pose proof (st_in _ _ _ ST _ _ _ Ej Zg) as Q. rewrite E in Q. apply some_eq in Q. subst j. eauto.
        - pose proof (st_out _ _ _ ST z NN Z1 Z2 I) as Q. rewrite E in Q. apply some_eq in Q. lia. }
      destruct (K x X1 X2 E1) as (g & G1 & Xg). destruct (K y Y1 Y2 E2) as (h & G2 & Yh). rewrite G1 in G2. apply some_eq in G2. subst h.
      exists g. split; [|auto]. unfold zget in G1. destruct (a <? 0); [discriminate|]. eapply nth_error_In; eauto. }
  unfold meet, corners_meet, near, next. rewrite TG. assert (~ across_edge D2 c (fst x) (snd x) (fst y) (snd y)) by (intros (Q & _); discriminate). tauto.
Qed.
Lemma stored_sized c c' gs' : sized D2 c -> allocated D2 c' -> stores D2 c' gs' ->
  (c_nt c' = c_nt c /\ c_nv c' = c_nv c /\ c_vertices c' = c_vertices c /\ c_ttv c' = c_ttv c /\ c_attr c' = c_attr c /\ c_tta c' = c_tta c) -> sized D2 c'.
Proof.
  intros S AL ST (E1 & E2 & E3 & E4 & E5 & E6). constructor; [auto|rewrite E2, E3; apply (sz_vertices _ _ S)|rewrite E1, E5, E6; apply (sz_attr _ _ S)|discriminate|].
  rewrite (st_off _ _ _ ST), (st_nc _ _ _ ST), (st_tree _ _ _ ST), (st_corner _ _ _ ST). 
  assert (LM : forall (f : Z * Z -> Z) l, zlen (map f l) = zlen l) by (intros; unfold zlen; rewrite map_length; reflexivity). rewrite !LM. split; [|reflexivity].
  pose proof (sums_at gs' [] 0) as E. rewrite app_nil_r in E. rewrite E. reflexivity.
Qed.
Lemma closure_mono (R S : Z * Z -> Z * Z -> Prop) : (forall u v, R u v -> clos_refl_sym_trans _ S u v) -> forall u v, clos_refl_sym_trans _ R u v -> clos_refl_sym_trans _ S u v.
Proof. intros H u v G. induction G; [auto|apply rst_refl|apply rst_sym; auto|eapply rst_trans; eauto]. Qed.

(** the identification that the old one and both pairs of faces generate *)
Definition generated2 (c : conn) (gs : list (list (Z * Z))) (A B : Z * Z -> Z * Z -> Prop) : Z * Z -> Z * Z -> Prop :=
  clos_refl_sym_trans _ (fun x y => corner_of D2 c x /\ (meet D2 c gs x y \/ A x y \/ B x y)).
Lemma generated2_sym c gs A B u v : generated2 c gs A B u v -> generated2 c gs B A u v.
Proof. apply closure_mono. intros x y (I & H). apply rst_step. split; [auto|tauto]. Qed.
Lemma touch_in c tl tr fl fr o x y : boundary D2 c tl fl -> touch tl tr fl fr o x y -> corner_of D2 c x.
Proof. intros (H1 & H2 & _) (i & Hi & -> & _). split; cbn [fst snd]; [auto|]. apply face_corner_range; auto. Qed.

Lemma excl t f a b u g : ~ (a = u /\ b = g) -> ((t =? a) && (f =? b)) && ((t =? u) && (f =? g)) = false.
Proof. intros H. apply not_true_iff_false. rewrite !andb_true_iff, !Z.eqb_eq. intros ((-> & ->) & (-> & ->)). auto. Qed.
Lemma pick4 {A} (p q r s : bool) (a b e f z : A) : p && r = false -> p && s = false -> q && r = false -> q && s = false ->
  (if r then e else if s then f else if p then a else if q then b else z) = (if p then a else if q then b else if r then e else if s then f else z).
Proof. destruct p, q, r, s; cbn; congruence. Qed.
Lemma pick2 {A} (p q : bool) (a b z : A) : p && q = false -> (if p then a else if q then b else z) = (if q then b else if p then a else z).
Proof. destruct p, q; cbn; congruence. Qed.
Lemma corner_nt d a b x : c_nt b = c_nt a -> corner_of d a x -> corner_of d b x.
Proof. intros E (H1 & H2). split; [rewrite E; exact H1|exact H2]. Qed.

Section Order.
  Variables (c : conn) (gs : list (list (Z * Z))).
  Hypothesis SZ : sized D2 c.
  Hypothesis VA : conn_is_valid D2 c = Some true.
  Hypothesis ST : stores D2 c gs.
  Hypothesis WH : whole D2 c gs.

  Lemma join_twice tl tr fl fr o ul ur gl gr p : boundary D2 c tl fl -> boundary D2 c tr fr -> boundary D2 c ul gl -> boundary D2 c ur gr ->
    NoDup [(tl, fl); (tr, fr); (ul, gl); (ur, gr)] -> 0 <= o < 2 -> 0 <= p < 2 ->
    exists c1 c2 gs2, join_faces D2 c tl tr fl fr o = Some c1 /\ join_faces D2 c1 ul ur gl gr p = Some c2 /\ sized D2 c2 /\ conn_is_valid D2 c2 = Some true /\ stores D2 c2 gs2 /\ c_nt c2 = c_nt c /\
      (forall t f, 0 <= f < 4 -> zget (c_ttt c2) (4 * t + f) = (if (t =? tl) && (f =? fl) then Some tr else if (t =? tr) && (f =? fr) then Some tl else if (t =? ul) && (f =? gl) then Some ur else if (t =? ur) && (f =? gr) then Some ul else zget (c_ttt c) (4 * t + f))) /\
      (forall t f, 0 <= f < 4 -> zget (c_ttf c2) (4 * t + f) = (if (t =? tl) && (f =? fl) then Some (fr + 4 * o) else if (t =? tr) && (f =? fr) then Some (fl + 4 * o) else if (t =? ul) && (f =? gl) then Some (gr + 4 * p) else if (t =? ur) && (f =? gr) then Some (gl + 4 * p) else zget (c_ttf c) (4 * t + f))) /\
      forall x y, corner_of D2 c x -> meet D2 c2 gs2 x y <-> generated2 c gs (touch tl tr fl fr o) (touch ul ur gl gr p) x y.
  Proof.
    intros B1 B2 B3 B4 ND HO HP.
    assert (DIS : ~ (tl = tr /\ fl = fr) /\ ~ (tl = ul /\ fl = gl) /\ ~ (tl = ur /\ fl = gr) /\ ~ (tr = ul /\ fr = gl) /\ ~ (tr = ur /\ fr = gr) /\ ~ (ul = ur /\ gl = gr)).
    { inversion ND as [|? ? N1 ND1]. inversion ND1 as [|? ? N2 ND2]. inversion ND2 as [|? ? N3 ND3]. subst. cbn [In] in *.
      split; [intros (-> & ->); apply N1; auto|]. split; [intros (-> & ->); apply N1; auto|]. split; [intros (-> & ->); apply N1; auto|]. split; [intros (-> & ->); apply N2; auto|]. split; [intros (-> & ->); apply N2; auto|intros (-> & ->); apply N3; auto]. }
    destruct DIS as (D1 & D2' & D3' & D4 & D5 & D6).
    destruct (C72_join_faces_2d c gs tl tr fl fr o (sz_alloc _ _ SZ) VA ST WH B1 B2 ltac:(intros Q; injection Q as -> ->; apply D1; auto) HO) as (c1 & gs1 & E1 & A1 & V1 & S1 & W1 & T1 & F1 & K1 & M1).
    pose proof K1 as (N1 & _).
    assert (BB : forall u g, boundary D2 c u g -> ~ (tl = u /\ fl = g) -> ~ (tr = u /\ fr = g) -> boundary D2 c1 u g).
    { intros u g (Q1 & Q2 & Q3 & Q4) X Y. cbn [faces] in *. unfold boundary. cbn [faces]. rewrite N1, T1, F1 by auto.
      replace ((u =? tl) && (g =? fl)) with false by (symmetry; apply not_true_iff_false; rewrite andb_true_iff, !Z.eqb_eq; intros (-> & ->); auto). replace ((u =? tr) && (g =? fr)) with false by (symmetry; apply not_true_iff_false; rewrite andb_true_iff, !Z.eqb_eq; intros (-> & ->); auto). auto. }
    destruct (C72_join_faces_2d c1 gs1 ul ur gl gr p A1 V1 S1 W1 (BB _ _ B3 D2' D4) (BB _ _ B4 D3' D5) ltac:(intros Q; injection Q as -> ->; apply D6; auto) HP) as (c2 & gs2 & E2 & A2 & V2 & S2 & W2 & T2 & F2 & K2 & M2).
    pose proof K2 as (N2 & _). exists c1, c2, gs2. split; [exact E1|]. split; [exact E2|].
    split; [exact (stored_sized c1 c2 gs2 (stored_sized c c1 gs1 SZ A1 S1 K1) A2 S2 K2)|]. split; [exact V2|]. split; [exact S2|]. split; [congruence|].
    split; [|split].
    - intros t f Hf. rewrite T2, T1 by auto. apply pick4; apply excl; assumption.
    - intros t f Hf. rewrite F2, F1 by auto. apply pick4; apply excl; assumption.
    - assert (CO : forall x, corner_of D2 c1 x <-> corner_of D2 c x) by (intros x; unfold corner_of; rewrite N1; tauto).
      intros x y Ix. rewrite M2 by (apply CO; auto). unfold generated. split.
      + apply closure_mono. intros u v (Iu & H). apply CO in Iu. destruct H as [H|H]; [|apply rst_step; split; auto].
        rewrite M1 in H by auto. revert H. unfold generated. apply closure_mono. intros a b (Ia & G). apply rst_step. split; [auto|tauto].
      + apply closure_mono. intros u v (Iu & H). apply rst_step. split; [apply CO; auto|]. destruct H as [H|[H|H]]; [left|left|right; auto]; apply M1; auto; apply rst_step; split; auto.
  Qed.
End Order.

(** In 2D, two pairs of faces may be joined in either order: the results are equivalent. *)
Theorem C73_join_order_2d : forall sort_edges sort_corners c gs tl tr fl fr o ul ur gl gr p,
  sorts edge_compare sort_edges -> sorts corner_compare sort_corners ->
  sized D2 c -> conn_is_valid D2 c = Some true -> stores D2 c gs -> whole D2 c gs ->
  boundary D2 c tl fl -> boundary D2 c tr fr -> boundary D2 c ul gl -> boundary D2 c ur gr ->
  NoDup [(tl, fl); (tr, fr); (ul, gl); (ur, gr)] -> 0 <= o < 2 -> 0 <= p < 2 ->
  exists a b x y, join_faces D2 c tl tr fl fr o = Some a /\ join_faces D2 a ul ur gl gr p = Some x /\
    join_faces D2 c ul ur gl gr p = Some b /\ join_faces D2 b tl tr fl fr o = Some y /\
    conn_is_equivalent sort_edges sort_corners D2 x y = Some true.
Proof.
  intros se sc c gs tl tr fl fr o ul ur gl gr p SE SC SZ VA ST WH B1 B2 B3 B4 ND HO HP.
  destruct (join_twice c gs SZ VA ST WH tl tr fl fr o ul ur gl gr p B1 B2 B3 B4 ND HO HP) as (a & x & gx & E1 & E2 & SX & VX & TX & NX & FX & GX & MX).
  assert (ND' : NoDup [(ul, gl); (ur, gr); (tl, fl); (tr, fr)]) by (apply (Permutation_NoDup (l := [(tl, fl); (tr, fr)] ++ [(ul, gl); (ur, gr)])); [apply Permutation_app_comm|exact ND]).
  destruct (join_twice c gs SZ VA ST WH ul ur gl gr p tl tr fl fr o B3 B4 B1 B2 ND' HP HO) as (b & y & gy & E3 & E4 & SY & VY & TY & NY & FY & GY & MY).
  exists a, b, x, y. split; [exact E1|]. split; [exact E2|]. split; [exact E3|]. split; [exact E4|].
  destruct (C73_is_equivalent se sc D2 x y SE SC SX SY VX VY) as (r & -> & R). f_equal. apply R. clear r R.
  assert (DIS : ~ (tl = ul /\ fl = gl) /\ ~ (tl = ur /\ fl = gr) /\ ~ (tr = ul /\ fr = gl) /\ ~ (tr = ur /\ fr = gr)).
  { inversion ND as [|? ? N1 ND1]. inversion ND1 as [|? ? N2 ND2]. subst. cbn [In] in *.
    split; [intros (-> & ->); apply N1; auto|]. split; [intros (-> & ->); apply N1; auto|]. split; [intros (-> & ->); apply N2; auto|intros (-> & ->); apply N2; auto]. }
  destruct DIS as (D1 & D2' & D3' & D4).
  split; [congruence|]. split; [|split; [discriminate|]].
  - intros t f Ht Hf. cbn [faces] in *. rewrite FX, FY, GX, GY by auto. split; symmetry; apply pick4; apply excl; assumption.
  - intros u v Iu Iv. assert (Iu' : corner_of D2 c u) by (apply (corner_nt D2 x c u); [congruence|exact Iu]).
    assert (Iuy : corner_of D2 y u) by (apply (corner_nt D2 x y u); [congruence|exact Iu]). assert (Ivy : corner_of D2 y v) by (apply (corner_nt D2 x y v); [congruence|exact Iv]).
    rewrite <- (meet_numbers x gx) by (auto; apply (sz_alloc _ _ SX)). rewrite <- (meet_numbers y gy) by (auto; apply (sz_alloc _ _ SY)).
    rewrite MX, MY by auto. split; apply generated2_sym.
Qed.
Print Assumptions C73_join_order_2d.

(** In 2D it does not matter which of the two faces is called left. *)
Theorem C73_join_sides_2d : forall sort_edges sort_corners c gs tl tr fl fr o,
  sorts edge_compare sort_edges -> sorts corner_compare sort_corners ->
  sized D2 c -> conn_is_valid D2 c = Some true -> stores D2 c gs -> whole D2 c gs ->
  boundary D2 c tl fl -> boundary D2 c tr fr -> (tl, fl) <> (tr, fr) -> 0 <= o < 2 ->
  exists x y, join_faces D2 c tl tr fl fr o = Some x /\ join_faces D2 c tr tl fr fl o = Some y /\
    conn_is_equivalent sort_edges sort_corners D2 x y = Some true.
Proof.
  intros se sc c gs tl tr fl fr o SE SC SZ VA ST WH B1 B2 NE HO.
  destruct (C72_join_faces_2d c gs tl tr fl fr o (sz_alloc _ _ SZ) VA ST WH B1 B2 NE HO) as (x & gx & E1 & A1 & V1 & S1 & W1 & T1 & F1 & K1 & M1).
  destruct (C72_join_faces_2d c gs tr tl fr fl o (sz_alloc _ _ SZ) VA ST WH B2 B1 ltac:(congruence) HO) as (y & gy & E2 & A2 & V2 & S2 & W2 & T2 & F2 & K2 & M2).
  exists x, y. split; [exact E1|]. split; [exact E2|]. pose proof K1 as (N1 & _). pose proof K2 as (N2 & _).
  destruct (C73_is_equivalent se sc D2 x y SE SC (stored_sized c x gx SZ A1 S1 K1) (stored_sized c y gy SZ A2 S2 K2) V1 V2) as (r & -> & R). f_equal. apply R. clear r R.
  assert (NEQ : ~ (tl = tr /\ fl = fr)) by (intros (-> & ->); auto).
  split; [congruence|]. split; [|split; [discriminate|]].
  - intros t f Ht Hf. cbn [faces] in *. rewrite T1, T2, F1, F2 by auto. split; apply pick2; apply excl; assumption.
  - intros u v Iu Iv. assert (Iu' : corner_of D2 c u) by (apply (corner_nt D2 x c u); [congruence|exact Iu]).
    assert (Iuy : corner_of D2 y u) by (apply (corner_nt D2 x y u); [congruence|exact Iu]). assert (Ivy : corner_of D2 y v) by (apply (corner_nt D2 x y v); [congruence|exact Iv]).
    rewrite <- (meet_numbers x gx) by auto. rewrite <- (meet_numbers y gy) by auto. rewrite M1, M2 by auto.
    assert (TS : forall tl tr fl fr p q, touch tl tr fl fr o p q -> touch tr tl fr fl o q p).
    { intros a b f g p q (i & Hi & -> & ->). destruct (flip_range i o Hi HO) as (R1 & R2). exists (Z.lxor i o). split; [auto|]. split; [auto|]. rewrite R2. auto. }
    assert (G : forall tl tr fl fr, boundary D2 c tl fl -> boundary D2 c tr fr -> forall p q, generated c gs tl tr fl fr o p q -> generated c gs tr tl fr fl o p q).
    { intros a b f g Ba Bb. apply closure_mono. intros p q (Ip & [H|H]); [apply rst_step; split; auto|]. apply rst_sym. apply rst_step. apply TS in H. split; [eapply touch_in; eauto|auto]. }
    split; apply G; auto.
Qed.
Print Assumptions C73_join_sides_2d.

Example C73_orders_2d : let c := isolated D2 4 in sized D2 c /\ conn_is_valid D2 c = Some true /\ stores D2 c [] /\ whole D2 c [] /\
  boundary D2 c 0 1 /\ boundary D2 c 1 0 /\ boundary D2 c 2 1 /\ boundary D2 c 3 0 /\ NoDup [(0, 1); (1, 0); (2, 1); (3, 0)].
Proof.
  cbv zeta. destruct (isolated_stores 4) as (S & W).
  split.
  { apply sized_ok; try reflexivity; [|discriminate|split; reflexivity].
    unfold allocated. cbn [isolated c_nv c_nt c_ne c_nc]. do 4 (split; [lia|]). split; [lia|]. split; [reflexivity|]. split; [reflexivity|]. split; [discriminate|]. split; [reflexivity|lia]. }
  split; [vm_compute; reflexivity|]. split; [exact S|]. split; [exact W|].
  do 4 (split; [unfold boundary; cbn [isolated c_nt faces]; split; [lia|]; split; [lia|]; split; vm_compute; reflexivity|]).
  repeat constructor; cbn [In]; intuition discriminate.
Qed.

(** In 3D the order matters: the same two pairs of faces of three cubes, joined in both orders, give valid
    connectivities that are not equivalent, whatever the sort (see C72_join_edges_3d_refuted). *)
Definition cubes_ab : conn := Eval vm_compute in got (join_faces D3 cubes2 1 2 4 0 0).
Definition cubes_b : conn := Eval vm_compute in got (join_faces D3 (isolated D3 3) 1 2 4 0 0).
Definition cubes_ba : conn := Eval vm_compute in got (join_faces D3 cubes_b 0 1 0 0 1).
Theorem C73_join_order_3d_refuted : exists a b x y,
  join_faces D3 (isolated D3 3) 0 1 0 0 1 = Some a /\ join_faces D3 a 1 2 4 0 0 = Some x /\
  join_faces D3 (isolated D3 3) 1 2 4 0 0 = Some b /\ join_faces D3 b 0 1 0 0 1 = Some y /\
  conn_is_valid D3 x = Some true /\ conn_is_valid D3 y = Some true /\
  forall sort_edges sort_corners, sorts edge_compare sort_edges -> sorts corner_compare sort_corners ->
    conn_is_equivalent sort_edges sort_corners D3 x y = Some false.
Proof.
  exists cubes2, cubes_b, cubes_ab, cubes_ba. do 6 (split; [vm_compute; reflexivity|]). intros se sc SE SC.
  assert (V1 : conn_is_valid D3 cubes_ab = Some true) by (vm_compute; reflexivity). assert (V2 : conn_is_valid D3 cubes_ba = Some true) by (vm_compute; reflexivity).
  assert (S1 : sized D3 cubes_ab) by (apply sized_ok; try reflexivity; [unfold allocated; cbn; repeat split; try lia; discriminate|intros _; split; reflexivity|split; reflexivity]).
  assert (S2 : sized D3 cubes_ba) by (apply sized_ok; try reflexivity; [unfold allocated; cbn; repeat split; try lia; discriminate|intros _; split; reflexivity|split; reflexivity]).
  destruct (C73_is_equivalent _ _ D3 _ _ C73_sort_edges C73_sort_corners S1 S2 V1 V2) as (r & E & R).
  assert (E' : conn_is_equivalent (isort edge_compare) (isort corner_compare) D3 cubes_ab cubes_ba = Some false) by (vm_compute; reflexivity).
  rewrite E' in E. apply some_eq in E. subst r.
  destruct (C73_is_equivalent se sc D3 _ _ SE SC S1 S2 V1 V2) as (r & -> & R'). f_equal. destruct r; [|reflexivity]. symmetry. apply R. apply R'. reflexivity.
Qed.
Print Assumptions C73_join_order_3d_refuted.
