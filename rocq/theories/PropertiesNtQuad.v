(** * C75: quadrants under neighbor transforms *)

From Coq Require Import ZArith List Bool Lia ZifyBool.
From Verif Require Import Quad Spec ZBits Interval QuadLemmas Transform PropertiesTransform Conn ConnLemmas Canon CanonLemmas CanonConn PropertiesConn PropertiesCanon NtQuad.
Import ListNotations.
Open Scope Z_scope.

(** the closed cube of a quadrant *)
Definition in_cube (d : dim) (q : quad) (p : vec) : Prop :=
  flat d p /\ forall i, 0 <= i < nd d -> vget (qvec q) i <= vget p i <= vget (qvec q) i + Spec.side (ql q).

Lemma axes_cases d i : 0 <= i < nd d -> i = 0 \/ i = 1 \/ i = 2 /\ d = D3.
Proof. intros H. destruct d; cbn in H; [lia|]. assert (i = 0 \/ i = 1 \/ i = 2) by lia. tauto. Qed.
Lemma quadrant_get d nt q i : 0 <= i < nd d ->
  vget (qvec (nt_quadrant d nt q)) i = i32 (Z.min (vget (n_sign nt) i * (vget (qvec q) (vget (n_perm nt) i) - vget (n_oself nt) (vget (n_perm nt) i) + 0 * QLEN (ql q)))
    (vget (n_sign nt) i * (vget (qvec q) (vget (n_perm nt) i) - vget (n_oself nt) (vget (n_perm nt) i) + 1 * QLEN (ql q))) + vget (n_oneigh nt) i).
Proof. intros H. destruct (axes_cases d i H) as [-> |[-> |(-> & ->)]]; [destruct d; reflexivity|destruct d; reflexivity|reflexivity]. Qed.
Lemma reverse_quadrant_get d nt q i : nt_ok d nt = true -> 0 <= i < nd d ->
  let j := vget (n_perm nt) i in
  vget (qvec (nt_quadrant_reverse d nt q)) j = i32 (Z.min (vget (n_sign nt) i * (vget (qvec q) i - vget (n_oneigh nt) i + 0 * QLEN (ql q)))
    (vget (n_sign nt) i * (vget (qvec q) i - vget (n_oneigh nt) i + 1 * QLEN (ql q))) + vget (n_oself nt) j).
Proof.
  intros H Hi. pose proof (nt_ok_perm _ _ H) as P. apply existsb_exists in P. destruct P as (v & I & E). clear H.
  unfold nt_quadrant_reverse. cbv zeta.
  assert (V : n_perm nt = v). { unfold veqb in E. destruct (n_perm nt) as [[a b] c], v as [[a' b'] c']. cbn in E. f_equal; [f_equal|]; lia. }
  rewrite V. clear V E. generalize (QLEN (ql q)). intros h. destruct d; cbn [perms In nd] in *.
  - assert (H : i = 0 \/ i = 1) by lia. destruct I as [<-|[<-|[<-|[]]]], H as [->| ->]; reflexivity.
  - assert (H : i = 0 \/ i = 1 \/ i = 2) by lia.
    destruct I as [<-|[<-|[<-|[<-|[<-|[<-|[]]]]]]], H as [->|[->| ->]]; reflexivity.
Qed.
Lemma wf_axis d q i : wf d q -> 0 <= i < nd d -> exists X, vget (qvec q) i = X * Spec.side (ql q) /\ 0 <= X < 2 ^ ql q.
Proof.
  intros W H. destruct (wf_elim d q W) as (X & Y & Z0 & Ex & Ey & Ez & HX & HY & HZ & _). unfold qvec, vget.
  destruct (axes_cases d i H) as [-> |[-> |(-> & ->)]]; cbn; eauto.
Qed.
Lemma quad_flat d nt q : flat d (qvec (nt_quadrant d nt q)) /\ (nt_ok d nt = true -> flat d (qvec (nt_quadrant_reverse d nt q))).
Proof. split; [|intros _]; intros ->; reflexivity. Qed.

(** the value before it is wrapped *)
Definition low (nt : ntrans) (q : quad) (i : Z) : Z := exact nt (qvec q) i - (if vget (n_sign nt) i =? 1 then 0 else Spec.side (ql q)).
Section One.
  Variables (d : dim) (nt : ntrans) (q : quad).
  Hypothesis OK : nt_ok d nt = true.
  Hypothesis W : wf d q.
  Lemma low_value i : 0 <= i < nd d -> vget (qvec (nt_quadrant d nt q)) i = low nt q i /\ - 2 ^ 30 <= low nt q i <= 2 ^ 31 - Spec.side (ql q).
  Proof using OK W.
    intros Hi. pose proof (wf_level d q W) as L. pose proof (side_pos (ql q) ltac:(lia)) as S. pose proof (side_mul (ql q) ltac:(lia)) as M.
    destruct (nt_ok_entry d nt i OK Hi) as (SG & O1 & O2 & _). cbv zeta in *. set (j := vget (n_perm nt) i) in *.
    destruct (wf_axis d q j W (perm_axis d nt i OK Hi)) as (X & EX & HX). change ROOT_LEN with (2 ^ 30) in *.
    rewrite quadrant_get by exact Hi. fold j. rewrite QLEN_side by lia. unfold low, exact. fold j. rewrite EX.
    assert (R : 0 <= X * Spec.side (ql q) /\ X * Spec.side (ql q) + Spec.side (ql q) <= 2 ^ 30) by nia.
    set (x := X * Spec.side (ql q)) in *. set (h := Spec.side (ql q)) in *. clearbody x h.
    destruct SG as [-> | ->]; cbn [Z.eqb Pos.eqb]; (split; [rewrite i32_id; lia|lia]).
  Qed.
  Lemma low_level : ql (nt_quadrant d nt q) = ql q.
  Proof. reflexivity. Qed.
  Lemma back : nt_quadrant_reverse d nt (nt_quadrant d nt q) = q.
  Proof using OK W.
    assert (E : qvec (nt_quadrant_reverse d nt (nt_quadrant d nt q)) = qvec q).
    { apply (vget_ext d); [apply quad_flat; exact OK|intros ->; destruct W as (_ & _ & _ & H); exact H|]. intros j Hj.
      destruct (perm_inv d nt OK j Hj) as (i & Hi & Ej). pose proof (reverse_quadrant_get d nt (nt_quadrant d nt q) i OK Hi) as R. cbv zeta in R. rewrite Ej in R. rewrite R. rewrite low_level.
      pose proof (wf_level d q W) as L. rewrite QLEN_side by lia. destruct (low_value i Hi) as (-> & _). unfold low, exact. rewrite Ej. destruct (nt_ok_entry d nt i OK Hi) as (SG & _).
      pose proof (side_pos (ql q) ltac:(lia)) as S. pose proof (side_mul (ql q) ltac:(lia)) as M. destruct (wf_axis d q j W Hj) as (X & EX & HX).
      assert (B : 0 <= vget (qvec q) j < 2 ^ 30) by (rewrite EX; nia). clear R EX. revert SG B S. generalize (Spec.side (ql q)) (vget (qvec q) j) (vget (n_oself nt) j) (vget (n_oneigh nt) i). intros h x o o' SG B S.
      destruct SG as [-> | ->]; cbn [Z.eqb Pos.eqb]; (rewrite i32_id; lia). }
    unfold qvec in E. destruct q as [x y z l]. cbn [qx qy qz] in E. unfold nt_quadrant_reverse, vquad in *. cbn [qx qy qz] in E. 
    match goal with |- mkq ?a ?b ?c _ = _ => assert (a = x /\ b = y /\ c = z) as (-> & -> & ->) by (injection E; auto) end. reflexivity.
  Qed.
  Lemma low_extended : is_extended d (nt_quadrant d nt q) = true.
  Proof using OK W.
    pose proof (wf_level d q W) as L. pose proof (side_pos (ql q) ltac:(lia)) as S. pose proof (side_mul (ql q) ltac:(lia)) as M. pose proof (side_half (ql q) ltac:(lia)) as SH.
    assert (A : forall i, 0 <= i < nd d -> Z.land (vget (qvec (nt_quadrant d nt q)) i) (QLEN (ql q) - 1) = 0 /\ - ROOT_LEN <= vget (qvec (nt_quadrant d nt q)) i <= ROOT_LEN + (ROOT_LEN - 1)).
    { intros i Hi. destruct (low_value i Hi) as (-> & B). split; [|change ROOT_LEN with (2 ^ 30); lia]. rewrite QLEN_side by lia. unfold Spec.side. rewrite land_mask by lia. fold (Spec.side (ql q)).
      apply Z.mod_divide; [lia|]. unfold low, exact. destruct (nt_ok_entry d nt i OK Hi) as (SG & _ & _ & O). cbv zeta in *. set (j := vget (n_perm nt) i) in *.
      destruct (wf_axis d q j W (perm_axis d nt i OK Hi)) as (X & EX & HX). rewrite EX. change ROOT_LEN with (2 ^ 30) in *.
      assert (D : exists K, vget (n_sign nt) i * (0 - vget (n_oself nt) j) + vget (n_oneigh nt) i = K * Spec.side (ql q)).
      { destruct O as [(_ & _ & [(O1 & O2)|(O1 & O2)])|(b & b' & _ & _ & O1 & O2 & O3)].
        - destruct SG as [-> | ->]; [exists 0; lia|exists (2 ^ ql q); lia].
        - exists 0. rewrite O1. lia.
        - rewrite O1, O2, O3. destruct b, b'; cbn [CanonLemmas.side Bool.eqb]; change ROOT_LEN with (2 ^ 30); [exists (2 * 2 ^ ql q)|exists (- 2 ^ ql q)|exists (2 ^ ql q)|exists 0]; lia. }
      destruct D as (K & D). destruct SG as [SG|SG]; rewrite SG in *; cbn [Z.eqb Pos.eqb]; [exists (X + K)|exists (K - X - 1)]; lia. }
    assert (FL : flat d (qvec (nt_quadrant d nt q))) by apply quad_flat.
    unfold is_extended, aligned, is_inside_3x3. rewrite low_level. unfold QMAXLEVEL.
    pose proof (A 0 ltac:(destruct d; cbn; lia)) as A0. pose proof (A 1 ltac:(destruct d; cbn; lia)) as A1. change (vget (qvec (nt_quadrant d nt q)) 0) with (qx (nt_quadrant d nt q)) in A0. change (vget (qvec (nt_quadrant d nt q)) 1) with (qy (nt_quadrant d nt q)) in A1.
    destruct A0 as (-> & A0), A1 as (-> & A1). rewrite !andb_true_iff, orb_true_iff, Z.eqb_refl, !Z.geb_le, !Z.leb_le.
    destruct d; cbn [is3 negb].
    - specialize (FL eq_refl). change (vget (qvec (nt_quadrant D2 nt q)) 2) with (qz (nt_quadrant D2 nt q)) in FL. rewrite FL. intuition lia.
    - pose proof (A 2 ltac:(cbn; lia)) as A2. change (vget (qvec (nt_quadrant D3 nt q)) 2) with (qz (nt_quadrant D3 nt q)) in A2. destruct A2 as (-> & A2). rewrite !andb_true_iff, Z.eqb_refl, !Z.geb_le, !Z.leb_le. intuition lia.
  Qed.
  Lemma cube_forward p : in_cube d q p -> fits d nt p -> in_cube d (nt_quadrant d nt q) (nt_forward d nt p).
  Proof using OK W.
    intros (F & C) FI. split; [apply forward_flat|]. intros i Hi. destruct (low_value i Hi) as (-> & _). rewrite low_level. rewrite forward_get, i32_id by auto. unfold low, exact.
    specialize (C _ (perm_axis d nt i OK Hi)). destruct (nt_ok_entry d nt i OK Hi) as (SG & _). destruct SG as [-> | ->]; cbn [Z.eqb Pos.eqb]; lia.
  Qed.
  Lemma cube_back p : in_cube d (nt_quadrant d nt q) p -> in_cube d q (nt_reverse d nt p).
  Proof using OK W.
    intros (F & C). split; [apply reverse_flat; exact OK|]. intros j Hj. destruct (perm_inv d nt OK j Hj) as (i & Hi & Ej). pose proof (reverse_get d nt p i OK Hi) as R. cbv zeta in R. rewrite Ej in R. rewrite R.
    specialize (C i Hi). destruct (low_value i Hi) as (E & _). rewrite E in C. rewrite low_level in C. unfold low, exact in C. rewrite Ej in C. destruct (nt_ok_entry d nt i OK Hi) as (SG & _).
    pose proof (wf_level d q W) as L. pose proof (side_pos (ql q) ltac:(lia)) as S. pose proof (side_mul (ql q) ltac:(lia)) as M. destruct (wf_axis d q j W Hj) as (X & EX & HX).
    assert (B : 0 <= vget (qvec q) j /\ vget (qvec q) j + Spec.side (ql q) <= 2 ^ 30) by (rewrite EX; nia). clear EX R E.
    destruct SG as [SG|SG]; rewrite SG in *; cbn [Z.eqb Pos.eqb] in C; (rewrite i32_id; lia).
  Qed.
  (** the center of a quadrant is inside of the tree *)
  Lemma low_outside : n_type nt <> CSelf -> 0 <= n_neigh nt < n_index d (n_type nt) -> is_valid d (nt_quadrant d nt q) = false.
  Proof using OK W.
    intros N HN. destruct (is_valid d (nt_quadrant d nt q)) eqn:V; [exfalso|reflexivity]. apply is_valid_wf in V.
    pose proof (wf_level d q W) as L. pose proof (side_half (ql q) ltac:(lia)) as SH. pose proof (side_pos (ql q + 1) ltac:(lia)) as SP. pose proof (side_mul (ql q) ltac:(lia)) as M. set (h := Spec.side (ql q + 1)) in *.
    set (p := (qx q + h, qy q + h, if is3 d then qz q + h else 0)).
    assert (P : forall i, 0 <= i < nd d -> vget p i = vget (qvec q) i + h) by (intros i Hi; destruct (axes_cases d i Hi) as [-> |[-> |(-> & ->)]]; reflexivity).
    assert (F : flat d p) by (intros ->; reflexivity).
    assert (LI : lies d CSelf 0 p).
    { split; [exact F|]. intros i Hi. cbn [at_axis]. rewrite P by exact Hi. destruct (wf_axis d q i W Hi) as (X & -> & HX). change ROOT_LEN with (2 ^ 30). nia. }
    apply (forward_outside d nt p OK N HN LI). assert (C : in_cube d q p) by (split; [exact F|]; intros i Hi; rewrite P by exact Hi; lia).
    apply cube_forward in C; [|apply inner_fits; auto]. destruct C as (F' & C). split; [exact F'|]. intros i Hi. specialize (C i Hi). destruct (wf_axis d _ i V Hi) as (X & E & HX). rewrite E in C. change (ql (nt_quadrant d nt q)) with (ql q) in *. change ROOT_LEN with (2 ^ 30). nia.
  Qed.
End One.

(** For every transform that p4est_connectivity_get_neighbor_transforms lists, p4est_neighbor_transform_quadrant keeps the
    level, never overflows for a valid quadrant, gives the cube that consists of the images of the points of the quadrant, and
    p4est_neighbor_transform_quadrant_reverse undoes it. *)
Theorem C75_quadrant : forall d c t ty k l nt q, conn_is_valid d c = Some true -> 0 <= c_ne c -> 0 <= c_nc c ->
  0 <= t < c_nt c -> 0 <= k < n_index d ty -> neighbor_transforms d c t ty k = Some l -> In nt l -> is_valid d q = true ->
  let r := nt_quadrant d nt q in
  ql r = ql q /\ nt_quadrant_reverse d nt r = q /\
  (forall p, in_cube d q p -> fits d nt p -> in_cube d r (nt_forward d nt p)) /\
  (forall p, in_cube d r p -> in_cube d q (nt_reverse d nt p)) /\
  (forall i, 0 <= i < nd d -> - 2 ^ 30 <= vget (qvec r) i <= 2 ^ 31 - Spec.side (ql r)) /\
  is_extended d r = true /\ (n_type nt = CSelf -> r = q) /\ (n_type nt <> CSelf -> is_valid d r = false).
Proof.
  intros d c t ty k l nt q V PE PC Ht Hk E I Q r. apply is_valid_wf in Q. destruct (nts_good d c V PE PC t ty k l nt Ht Hk E I) as ((OK & _ & _ & HN) & _).
  split; [reflexivity|]. split; [apply back; auto|]. split; [intros p; apply cube_forward; auto|]. split; [intros p; apply cube_back; auto|].
  split; [intros i Hi; destruct (low_value d nt q OK Q i Hi) as (A & B); unfold r; rewrite A; exact B|]. split; [apply low_extended; auto|]. split; [|intros N; apply low_outside; auto].
  intros TS. destruct (C66_listed d c t ty k l V PE PC Ht Hk E) as (SELF & _). destruct (SELF nt I TS) as (_ & ID).
  assert (EV : qvec r = qvec q).
  { apply (vget_ext d); [apply quad_flat|intros ->; destruct Q as (_ & _ & _ & H); exact H|]. intros i Hi.
    assert (P : forall p, int32s d p -> fits d nt p -> exact nt p i = vget p i). { intros p Ip Fp. rewrite <- (ID p Ip) at 2. rewrite forward_get, i32_id by auto. reflexivity. }
    destruct (nt_ok_entry d nt i OK Hi) as (SG & O1 & O2 & O). cbv zeta in O. rewrite TS in O. cbn [at_axis] in O.
    assert (FT : forall p, (forall j, 0 <= j < nd d -> 0 <= vget p j < 2 ^ 30) -> fits d nt p).
    { intros p R i' Hi'. specialize (R _ (perm_axis d nt i' OK Hi')). destruct (nt_ok_entry d nt i' OK Hi') as (SG' & _ & _ & O'). cbv zeta in O'. rewrite TS in O'. cbn [at_axis] in O'. unfold exact. change ROOT_LEN with (2 ^ 30) in O'.
      destruct O' as [(_ & _ & [(U1 & U2)|(U1 & U2)])|(b & b' & A1 & _)]; [|rewrite U1, U2; lia|discriminate]. destruct SG' as [-> | ->]; lia. }
    assert (SM : forall p, flat d p -> (forall j, 0 <= j < nd d -> 0 <= vget p j < 2 ^ 30) -> exact nt p i = vget p i).
    { intros p Fp R. apply P; [split; [exact Fp|]|apply FT; exact R]. intros j Hj. specialize (R j Hj). lia. }
    pose proof (perm_axis d nt i OK Hi) as HP.
    assert (P0 : exact nt (0, 0, 0) i = 0). { rewrite SM; [|intros _; reflexivity|]; [|intros j Hj]; unfold vget; destruct (_ =? 0); try lia; destruct (_ =? 1); lia. }
    assert (V1 : forall j, 0 <= j < nd d -> vget (1, 1, if is3 d then 1 else 0) j = 1) by (intros j Hj; destruct (axes_cases d j Hj) as [-> |[-> |(-> & ->)]]; reflexivity).
    assert (P1 : exact nt (1, 1, if is3 d then 1 else 0) i = 1). { rewrite SM; [apply V1; exact Hi|intros ->; reflexivity|]. intros j Hj. rewrite V1 by exact Hj. lia. }
    assert (PQ : exact nt (qvec q) i = vget (qvec q) i).
    { apply SM; [intros ->; destruct Q as (_ & _ & _ & H); exact H|]. intros j Hj. destruct (wf_axis d q j Q Hj) as (X & -> & HX). pose proof (wf_level d q Q). pose proof (side_mul (ql q) ltac:(lia)). pose proof (side_pos (ql q) ltac:(lia)). nia. }
    assert (Z1 : forall j, vget (0, 0, 0) j = 0) by (intros j; unfold vget; destruct (j =? 0); [reflexivity|]; destruct (j =? 1); reflexivity).
    assert (S1 : vget (n_sign nt) i = 1). { unfold exact in P0, P1. rewrite V1 in P1 by exact HP. rewrite Z1 in P0. lia. }
    destruct (low_value d nt q OK Q i Hi) as (A & _). unfold r. rewrite A. unfold low. rewrite S1, PQ. cbn [Z.eqb Pos.eqb]. lia. }
  unfold r in *. clear - EV. assert (LL : ql (nt_quadrant d nt q) = ql q) by reflexivity. destruct (nt_quadrant d nt q) as [a b e f], q as [a' b' e' f']. unfold qvec in EV. cbn [qx qy qz ql] in *. congruence.
Qed.
Print Assumptions C75_quadrant.

Example C75_example : exists l, neighbor_transforms D2 twisted 0 CCorner 0 = Some l /\ is_valid D2 (mkq 0 (2 ^ 28) 0 2) = true /\
  firstn 3 (map (fun nt => nt_quadrant D2 nt (mkq 0 (2 ^ 28) 0 2)) l) = [mkq 0 (2 ^ 28) 0 2; mkq (2 ^ 30) (2 ^ 29) 0 2; mkq 0 (2 ^ 30 + 2 ^ 28) 0 2] /\
  map (fun nt => nt_quadrant_reverse D2 nt (nt_quadrant D2 nt (mkq 0 (2 ^ 28) 0 2))) l = repeat (mkq 0 (2 ^ 28) 0 2) 8.
Proof. eexists. split; [vm_compute; reflexivity|]. repeat split; vm_compute; reflexivity. Qed.
