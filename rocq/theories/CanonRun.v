(** * The neighbor transforms of a valid connectivity, and the loops of
    p4est_connectivity_coordinates_canonicalize *)

From Coq Require Import ZArith List Bool Lia ZifyBool.
From Verif Require Import Quad Spec Morton CompareLemmas Neighbor PropertiesNeighbor Transform PropertiesTransform Partition Conn ConnLemmas ConnBounds PropertiesConn
  Canon CanonLemmas.
Import ListNotations.
Open Scope Z_scope.

(** ** The order of points *)

(** position of a point on the space filling curve through the points *)
Definition key (d : dim) (p : vec) : Z := let '(x, y, z) := p in mort d 32 x y z.
Definition point_le (d : dim) (a b : Z * vec) : Prop := fst a < fst b \/ (fst a = fst b /\ key d (snd a) <= key d (snd b)).

Lemma closed_coords d x y z : closed d (x, y, z) -> 0 <= x <= 2 ^ 30 /\ 0 <= y <= 2 ^ 30 /\ 0 <= z <= 2 ^ 30 /\ (d = D2 -> z = 0).
Proof.
  intros (F & B). pose proof (B 0) as B0. pose proof (B 1) as B1. pose proof (B 2) as B2. change ROOT_LEN with (2 ^ 30) in *.
  unfold flat in F. destruct d; cbn [nd vget Z.eqb Pos.eqb] in *.
  - rewrite F by auto. repeat split; lia.
  - repeat split; try lia. discriminate.
Qed.
Lemma u32_small x : 0 <= x <= 2 ^ 30 -> u32 x = x.
Proof. intros H. apply Z.mod_small. lia. Qed.
Lemma key_compare d p q : closed d p -> closed d q ->
  (vcompare d p q < 0 <-> key d p < key d q) /\ (vcompare d p q = 0 <-> key d p = key d q).
Proof.
  destruct p as [[x y] z], q as [[a b] c]. intros P Q. apply closed_coords in P, Q. unfold vcompare, key.
  rewrite coordinates_compare_mort by (unfold in32; lia). rewrite !u32_small by lia.
  generalize (mort d 32 x y z) (mort d 32 a b c). intros m n. unfold sgn_diff. cbv zeta.
  destruct (m - n =? 0) eqn:E1; [lia|]. destruct (m - n <? 0) eqn:E2; lia.
Qed.
Lemma key_inj d p q : closed d p -> closed d q -> key d p = key d q -> p = q.
Proof.
  destruct p as [[x y] z], q as [[a b] c]. intros P Q. apply closed_coords in P, Q. unfold key. intros E.
  apply mort_inj in E. change (Z.of_nat 32) with 32 in E. destruct E as (E1 & E2 & E3). rewrite !Z.mod_small in E1, E2 by lia.
  destruct P as (_ & _ & P & P'), Q as (_ & _ & Q & Q'). subst a b. f_equal.
  destruct d; [rewrite P', Q' by auto; auto|]. rewrite !Z.mod_small in E3 by lia. apply E3. auto.
Qed.
Lemma point_le_antisym d a b : closed d (snd a) -> closed d (snd b) -> point_le d a b -> point_le d b a -> a = b.
Proof.
  destruct a as (t & p), b as (t' & p'). unfold point_le. cbn [fst snd]. intros A B H1 H2. assert (t = t') by lia. subst t'. f_equal.
  apply (key_inj d); auto. lia.
Qed.

Lemma lower_spec d a b : closed d (snd a) -> closed d (snd b) ->
  (lower d a b = a \/ lower d a b = b) /\ point_le d (lower d a b) a /\ point_le d (lower d a b) b.
Proof.
  intros A B. unfold lower, point_le. destruct (key_compare d (snd b) (snd a) B A) as (K & _).
  destruct (fst b >? fst a) eqn:E1; [split; [auto|lia]|]. destruct (fst b <? fst a) eqn:E2; [split; [auto|lia]|].
  destruct (vcompare d (snd b) (snd a) <? 0) eqn:E3; (split; [auto|lia]).
Qed.
Lemma lower_fold d : forall l b, closed d (snd b) -> (forall x, In x l -> closed d (snd x)) ->
  let r := fold_left (lower d) l b in
  In r (b :: l) /\ forall x, In x (b :: l) -> point_le d r x.
Proof.
  induction l as [|a l IH]; intros b B L; cbn [fold_left].
  - split; [left; auto|]. intros x [<-|[]]. unfold point_le. lia.
  - destruct (lower_spec d b a B (L a (or_introl eq_refl))) as (S1 & S2 & S3).
    assert (C : closed d (snd (lower d b a))) by (destruct S1 as [-> | ->]; [auto|apply L; left; auto]).
    destruct (IH (lower d b a) C (fun x I => L x (or_intror I))) as (I & M). cbv zeta. split.
    + destruct I as [E|I]; [|right; right; auto]. rewrite <- E. destruct S1 as [-> | ->]; cbn; auto.
    + pose proof (M _ (or_introl eq_refl)) as M0. intros x [<-|[<-|I']]; [| |apply M; right; auto];
      unfold point_le in *; lia.
Qed.

(** ** The loops *)

Lemma gather_app {A B} (f : A -> option (list B)) a b : gather f (a ++ b) = match gather f a, gather f b with Some x, Some y => Some (x ++ y) | _, _ => None end.
Proof.
  induction a as [|x a IH]; cbn [app gather]; [destruct (gather f b); auto|]. destruct (f x); [|auto]. rewrite IH.
  destruct (gather f a); [|auto]. destruct (gather f b); [|auto]. rewrite app_assoc. auto.
Qed.
Lemma gather_spec {A B} (f : A -> option (list B)) : forall l r, gather f l = Some r -> forall y, In y r <-> exists x ys, In x l /\ f x = Some ys /\ In y ys.
Proof.
  induction l as [|x l IH]; intros r; cbn [gather].
  - intros E. injection E as <-. intros y. split; [intros []|intros (x & ys & [] & _)].
  - destruct (f x) as [a|] eqn:E1; [|discriminate]. destruct (gather f l) as [b|] eqn:E2; [|discriminate]. intros E. injection E as <-.
    intros y. rewrite in_app_iff, (IH b eq_refl). split.
    + intros [I|(z & ys & I & F & I')]; [exists x, a; split; [left; auto|auto]|exists z, ys; split; [right; auto|auto]].
    + intros (z & ys & [<-|I] & F & I'); [rewrite E1 in F; injection F as <-; auto|right; eauto].
Qed.
Lemma gather_some {A B} (f : A -> option (list B)) : forall l, (forall x, In x l -> exists ys, f x = Some ys) -> exists r, gather f l = Some r.
Proof.
  induction l as [|x l IH]; intros H; cbn [gather]; [eauto|]. destruct (H x (or_introl eq_refl)) as (ys & ->).
  destruct (IH (fun z I => H z (or_intror I))) as (r & ->). eauto.
Qed.
Lemma take_fold {A} d (cond : A -> bool) (g : A -> option (list (Z * vec))) : forall l r,
  fold_left (fun r f => if cond f then take d (g f) r else r) l r = take d (gather g (filter cond l)) r.
Proof.
  induction l as [|x l IH]; intros r; cbn [fold_left filter]; [destruct r; reflexivity|].
  rewrite IH. destruct (cond x); [|auto]. cbn [gather]. destruct (g x) as [a|]; [|destruct (gather g (filter cond l)); reflexivity].
  destruct (gather g (filter cond l)) as [b|]; [|reflexivity]. destruct r as [r|]; [|reflexivity]. cbn [take]. rewrite fold_left_app. reflexivity.
Qed.

(** which faces, edges and corners are touched *)
Lemma contact_at ty k d p f : lies d ty k p -> 0 <= f < faces d ->
  contact p f = match at_axis ty k (f / 2) with Some b => Bool.eqb b (Z.odd f) | None => false end.
Proof.
  intros (_ & L) Hf. unfold contact. assert (Ha : 0 <= f / 2 < nd d) by (split; [apply Z.div_pos; lia|apply Z.div_lt_upper_bound; destruct d; cbn in *; lia]).
  specialize (L _ Ha). rewrite Zmod_odd. change ROOT_LEN with (2 ^ 30) in *.
  destruct (at_axis ty k (f / 2)) as [[|]|]; unfold side in L; change ROOT_LEN with (2 ^ 30) in *; destruct (Z.odd f); cbn [Bool.eqb Z.eqb]; lia.
Qed.
Definition touch (ty : ctype) (k f : Z) : bool := match at_axis ty k (f / 2) with Some b => Bool.eqb b (Z.odd f) | None => false end.
Definition same (a b : list Z) : bool := forallb (fun x => existsb (Z.eqb x) b) a && forallb (fun x => existsb (Z.eqb x) a) b.
Lemma same_spec a b : same a b = true -> forall x, In x a <-> In x b.
Proof.
  unfold same. rewrite andb_true_iff, !forallb_forall. intros (H1 & H2) x. split; intros I.
  - specialize (H1 x I). apply existsb_exists in H1. destruct H1 as (y & I' & E). assert (x = y) by lia. subst. auto.
  - specialize (H2 x I). apply existsb_exists in H2. destruct H2 as (y & I' & E). assert (x = y) by lia. subst. auto.
Qed.
Lemma count_in n i : In i (count n) <-> 0 <= i < n.
Proof. unfold count. rewrite in_map_iff. split; [intros (x & <- & H); apply in_seq in H; lia|]. intros H. exists (Z.to_nat i). rewrite in_seq. lia. Qed.
Definition chk_touch (d : dim) (ty : ctype) (k : Z) : bool :=
  let n := fold_left (fun n i => n + b2z (touch ty k (2 * i) || touch ty k (2 * i + 1))) (axes d) 0 in
  (n =? match ty with CSelf => 0 | CFace => 1 | CEdge => 2 | CCorner => nd d end) &&
  same (filter (touch ty k) (count (faces d))) (touched_faces d ty k) &&
  (negb (is3 d) || same (filter (fun e => touch ty k (edge_faces e 0) && touch ty k (edge_faces e 1)) (count 12)) (touched_edges ty k)) &&
  same (filter (fun x => forallb (fun i => touch ty k (corner_faces d x i)) (axes d)) (count (children d))) (match ty with CCorner => [k] | _ => [] end).
Lemma chk_touch_all d ty k : 0 <= k < n_index d ty -> chk_touch d ty k = true.
Proof.
  intros Hk. assert (A : zall (n_index d ty) (chk_touch d ty) = true) by (destruct d, ty; vm_compute; reflexivity).
  exact (zall_spec _ _ k A Hk).
Qed.
Lemma touched_lies d ty k p : lies d ty k p -> 0 <= k < n_index d ty ->
  contacts d p = match ty with CSelf => 0 | CFace => 1 | CEdge => 2 | CCorner => nd d end /\
  (forall f, In f (filter (contact p) (count (faces d))) <-> In f (touched_faces d ty k)) /\
  (d = D3 -> forall e, In e (filter (fun e => contact p (edge_faces e 0) && contact p (edge_faces e 1)) (count 12)) <-> In e (touched_edges ty k)) /\
  (forall x, In x (filter (fun x => forallb (fun i => contact p (corner_faces d x i)) (axes d)) (count (children d))) <->
             In x (match ty with CCorner => [k] | _ => [] end)).
Proof.
  intros L Hk. pose proof (chk_touch_all d ty k Hk) as C. unfold chk_touch in C. cbv zeta in C. rewrite !andb_true_iff in C.
  destruct C as (((C1 & C2) & C3) & C4).
  assert (T : forall f, 0 <= f < faces d -> contact p f = touch ty k f) by (intros f Hf; apply (contact_at ty k d p f L Hf)).
  split; [|split; [|split]].
  - unfold contacts. rewrite <- (proj1 (Z.eqb_eq _ _) C1).
    destruct d; cbn [axes fold_left]; rewrite !T by (cbn; lia); reflexivity.
  - intros f. rewrite <- (same_spec _ _ C2). rewrite !filter_In, count_in. split; intros (I & E); (split; [auto|]); rewrite T in * by auto; auto.
  - intros -> e. cbn [is3 negb orb] in C3. rewrite <- (same_spec _ _ C3). rewrite !filter_In, count_in.
    split; intros (I & E); (split; [auto|]); rewrite !T in * by (apply edge_faces_range; lia); auto.
  - intros x. rewrite <- (same_spec _ _ C4). rewrite !filter_In, count_in.
    split; intros (I & E); (split; [auto|]); rewrite forallb_forall in *; intros i Hi; specialize (E i Hi); apply axes_in in Hi;
    rewrite T in * by (apply corner_faces_range; auto); auto.
Qed.

(** every point of a closed tree lies on exactly one interface *)
Lemma lies_exists d p : closed d p -> exists ty k, 0 <= k < n_index d ty /\ lies d ty k p.
Proof.
  intros (F & B).
  assert (C : forall i, 0 <= i < nd d -> vget p i = 0 \/ vget p i = ROOT_LEN \/ 0 < vget p i < ROOT_LEN) by (intros i Hi; specialize (B i Hi); lia).
  assert (G : forall ty k, 0 <= k < n_index d ty -> (forall i, In i (axes d) -> match at_axis ty k i with None => 0 < vget p i < ROOT_LEN | Some b => vget p i = side b end) ->
     exists ty k, 0 <= k < n_index d ty /\ lies d ty k p).
  { intros ty k Hk H. exists ty, k. split; [auto|]. split; [auto|]. intros i Hi. apply H. apply axes_in. auto. }
  destruct d.
  - pose proof (C 0 ltac:(cbn; lia)) as C0. pose proof (C 1 ltac:(cbn; lia)) as C1. cbn [axes] in G.
    set (go := fun ty k => G ty k).
    assert (G' : forall ty k, 0 <= k < n_index D2 ty -> match at_axis ty k 0 with None => 0 < vget p 0 < ROOT_LEN | Some b => vget p 0 = side b end ->
      match at_axis ty k 1 with None => 0 < vget p 1 < ROOT_LEN | Some b => vget p 1 = side b end -> exists ty k, 0 <= k < n_index D2 ty /\ lies D2 ty k p).
    { intros ty k Hk H0 H1. apply (G ty k Hk). intros i [<-|[<-|[]]]; auto. }
    clear G go. destruct C0 as [C0|[C0|C0]], C1 as [C1|[C1|C1]].
    + apply (G' CCorner 0); [cbn; lia|exact C0|exact C1].
    + apply (G' CCorner 2); [cbn; lia|exact C0|exact C1].
    + apply (G' CFace 0); [cbn; lia|exact C0|exact C1].
    + apply (G' CCorner 1); [cbn; lia|exact C0|exact C1].
    + apply (G' CCorner 3); [cbn; lia|exact C0|exact C1].
    + apply (G' CFace 1); [cbn; lia|exact C0|exact C1].
    + apply (G' CFace 2); [cbn; lia|exact C0|exact C1].
    + apply (G' CFace 3); [cbn; lia|exact C0|exact C1].
    + apply (G' CSelf 0); [cbn; lia|exact C0|exact C1].
  - pose proof (C 0 ltac:(cbn; lia)) as C0. pose proof (C 1 ltac:(cbn; lia)) as C1. pose proof (C 2 ltac:(cbn; lia)) as C2. cbn [axes] in G.
    assert (G' : forall ty k, 0 <= k < n_index D3 ty -> match at_axis ty k 0 with None => 0 < vget p 0 < ROOT_LEN | Some b => vget p 0 = side b end ->
      match at_axis ty k 1 with None => 0 < vget p 1 < ROOT_LEN | Some b => vget p 1 = side b end ->
      match at_axis ty k 2 with None => 0 < vget p 2 < ROOT_LEN | Some b => vget p 2 = side b end -> exists ty k, 0 <= k < n_index D3 ty /\ lies D3 ty k p).
    { intros ty k Hk H0 H1 H2. apply (G ty k Hk). intros i [<-|[<-|[<-|[]]]]; auto. }
    clear G. destruct C0 as [C0|[C0|C0]], C1 as [C1|[C1|C1]], C2 as [C2|[C2|C2]];
    first [ apply (G' CSelf 0); [cbn; lia|exact C0|exact C1|exact C2]
          | apply (G' CFace 0); [cbn; lia|exact C0|exact C1|exact C2] | apply (G' CFace 1); [cbn; lia|exact C0|exact C1|exact C2]
          | apply (G' CFace 2); [cbn; lia|exact C0|exact C1|exact C2] | apply (G' CFace 3); [cbn; lia|exact C0|exact C1|exact C2]
          | apply (G' CFace 4); [cbn; lia|exact C0|exact C1|exact C2] | apply (G' CFace 5); [cbn; lia|exact C0|exact C1|exact C2]
          | apply (G' CEdge 0); [cbn; lia|exact C0|exact C1|exact C2] | apply (G' CEdge 1); [cbn; lia|exact C0|exact C1|exact C2]
          | apply (G' CEdge 2); [cbn; lia|exact C0|exact C1|exact C2] | apply (G' CEdge 3); [cbn; lia|exact C0|exact C1|exact C2]
          | apply (G' CEdge 4); [cbn; lia|exact C0|exact C1|exact C2] | apply (G' CEdge 5); [cbn; lia|exact C0|exact C1|exact C2]
          | apply (G' CEdge 6); [cbn; lia|exact C0|exact C1|exact C2] | apply (G' CEdge 7); [cbn; lia|exact C0|exact C1|exact C2]
          | apply (G' CEdge 8); [cbn; lia|exact C0|exact C1|exact C2] | apply (G' CEdge 9); [cbn; lia|exact C0|exact C1|exact C2]
          | apply (G' CEdge 10); [cbn; lia|exact C0|exact C1|exact C2] | apply (G' CEdge 11); [cbn; lia|exact C0|exact C1|exact C2]
          | apply (G' CCorner 0); [cbn; lia|exact C0|exact C1|exact C2] | apply (G' CCorner 1); [cbn; lia|exact C0|exact C1|exact C2]
          | apply (G' CCorner 2); [cbn; lia|exact C0|exact C1|exact C2] | apply (G' CCorner 3); [cbn; lia|exact C0|exact C1|exact C2]
          | apply (G' CCorner 4); [cbn; lia|exact C0|exact C1|exact C2] | apply (G' CCorner 5); [cbn; lia|exact C0|exact C1|exact C2]
          | apply (G' CCorner 6); [cbn; lia|exact C0|exact C1|exact C2] | apply (G' CCorner 7); [cbn; lia|exact C0|exact C1|exact C2] ].
Qed.

(** ** The maps of the three kinds agree *)

Lemma vget_vset v i j a : 0 <= i <= 2 -> 0 <= j <= 2 -> vget (vset v i a) j = if j =? i then a else vget v j.
Proof.
  intros Hi Hj. destruct v as [[x y] z].
  assert (A : i = 0 \/ i = 1 \/ i = 2) by lia. assert (B : j = 0 \/ j = 1 \/ j = 2) by lia.
  destruct A as [->|[->| ->]], B as [->|[->| ->]]; reflexivity.
Qed.
(** a component of p4est_coordinates_transform_face: the coordinate read, its sign, the constant *)
Definition face_affine (d : dim) (ft : ftrans) (i : Z) : Z * Z * Z :=
  if i =? tg2 ft then
    (my2 ft, (if (er2 ft =? 0) || (er2 ft =? 3) then -1 else 1),
     (if er2 ft =? 0 then 0 else if er2 ft =? 1 then ROOT_LEN else if er2 ft =? 2 then - ROOT_LEN else 2 * ROOT_LEN))
  else if is3 d && (i =? tg1 ft) then (my1 ft, (if er1 ft =? 0 then 1 else -1), (if er1 ft =? 0 then 0 else ROOT_LEN))
  else (my0 ft, (if er0 ft =? 0 then 1 else -1), (if er0 ft =? 0 then 0 else ROOT_LEN)).
Lemma face_affine_spec d ft p i : 0 <= i < nd d -> 0 <= tg0 ft <= 2 -> 0 <= tg1 ft <= 2 -> 0 <= tg2 ft <= 2 -> 0 <= er2 ft <= 3 ->
  (i = tg0 ft \/ (d = D3 /\ i = tg1 ft) \/ i = tg2 ft) ->
  let '(j, s, k) := face_affine d ft i in vget (coordinates_transform_face d p ft) i = i32 (s * vget p j + k).
Proof.
  intros Hi T0 T1 T2 E2 J. unfold face_affine, coordinates_transform_face. cbv zeta.
  assert (Hi' : 0 <= i <= 2) by (destruct d; cbn in Hi; lia).
  rewrite vget_vset by auto. destruct (i =? tg2 ft) eqn:G2.
  - destruct (er2 ft =? 0) eqn:A0; cbn [orb]; [f_equal; lia|]. destruct (er2 ft =? 3) eqn:A3.
    + destruct (er2 ft =? 1) eqn:A1; [lia|]. destruct (er2 ft =? 2) eqn:A2; [lia|]. f_equal. lia.
    + destruct (er2 ft =? 1) eqn:A1; [f_equal; lia|]. destruct (er2 ft =? 2) eqn:A2; [f_equal; lia|lia].
  - destruct d; cbn [is3 andb].
    + rewrite vget_vset by auto. destruct (i =? tg0 ft) eqn:G0; [|destruct J as [?|[(? & ?)|?]]; [lia|discriminate|lia]].
      destruct (er0 ft =? 0); f_equal; lia.
    + rewrite vget_vset by auto. destruct (i =? tg1 ft) eqn:G1; [destruct (er1 ft =? 0); f_equal; lia|].
      rewrite vget_vset by auto. destruct (i =? tg0 ft) eqn:G0; [|destruct J as [?|[(? & ?)|?]]; lia].
      destruct (er0 ft =? 0); f_equal; lia.
Qed.
Definition chk_face_map (d : dim) (f nf o : Z) : bool :=
  let ft := expand_face_transform d f nf o in
  let nt := with_maps CFace 0 f nf (face_nt d ft) in
  (0 <=? tg0 ft) && (tg0 ft <=? 2) && (0 <=? tg1 ft) && (tg1 ft <=? 2) && (0 <=? tg2 ft) && (tg2 ft <=? 2) && (0 <=? er2 ft) && (er2 ft <=? 3) &&
  forallb (fun i => ((i =? tg0 ft) || (is3 d && (i =? tg1 ft)) || (i =? tg2 ft)) &&
    let '(j, s, k) := face_affine d ft i in
    (j =? vget (n_perm nt) i) && (s =? vget (n_sign nt) i) && (k =? vget (n_oneigh nt) i - s * vget (n_oself nt) j)) (axes d).
Lemma chk_face_all d f nf o : 0 <= f < faces d -> 0 <= nf < faces d -> 0 <= o < half d -> chk_face_map d f nf o = true.
Proof.
  intros Hf Hn Ho.
  assert (A : zall (faces d) (fun f => zall (faces d) (fun nf => zall (half d) (chk_face_map d f nf))) = true) by (destruct d; vm_compute; reflexivity).
  pose proof (zall_spec _ _ f A Hf) as A1. cbv beta in A1.
  pose proof (zall_spec _ _ nf A1 Hn) as A2. cbv beta in A2.
  exact (zall_spec _ _ o A2 Ho).
Qed.
Lemma ctf_flat d p f nf o : 0 <= f < faces d -> 0 <= nf < faces d -> flat d (coordinates_transform_face d p (expand_face_transform d f nf o)).
Proof.
  intros Hf Hn E. subst d. cbn [faces] in *.
  assert (H : nf / 2 = 0 \/ nf / 2 = 1).
  { assert (0 <= nf / 2 < 2) by (split; [apply Z.div_pos; lia|apply Z.div_lt_upper_bound; lia]). lia. }
  unfold coordinates_transform_face, expand_face_transform. cbn [tg0 tg1 tg2 is3]. destruct H as [-> | ->]; reflexivity.
Qed.
Lemma face_agree d f nf o t p : 0 <= f < faces d -> 0 <= nf < faces d -> 0 <= o < half d ->
  nt_forward d (with_maps CFace t f nf (face_nt d (expand_face_transform d f nf o))) p = coordinates_transform_face d p (expand_face_transform d f nf o).
Proof.
  intros Hf Hn Ho. apply (vget_ext d); [apply forward_flat|apply ctf_flat; auto|]. intros i Hi. rewrite forward_get by auto.
  pose proof (chk_face_all d f nf o Hf Hn Ho) as C. unfold chk_face_map in C. cbv zeta in C.
  set (ft := expand_face_transform d f nf o) in *. rewrite !andb_true_iff in C. destruct C as ((((((((A1 & A2) & A3) & A4) & A5) & A6) & A7) & A8) & C).
  rewrite forallb_forall in C. specialize (C i (proj2 (axes_in d i) Hi)). apply andb_true_iff in C as (J & C).
  assert (J' : i = tg0 ft \/ (d = D3 /\ i = tg1 ft) \/ i = tg2 ft) by (destruct d; cbn [is3] in J; [lia|]; destruct (i =? tg1 ft) eqn:?; [right; left; split; [auto|lia]|lia]).
  pose proof (face_affine_spec d ft p i Hi ltac:(lia) ltac:(lia) ltac:(lia) ltac:(lia) J') as S1.
  destruct (face_affine d ft i) as [[j s] k]. rewrite S1. f_equal. unfold exact.
  rewrite !andb_true_iff in C. destruct C as ((C1 & C2) & C3). cbn [n_perm n_sign n_oself n_oneigh with_maps] in *.
  assert (E1 : vget (fst (fst (fst (face_nt d ft)))) i = j) by lia.
  assert (E2 : vget (snd (fst (fst (face_nt d ft)))) i = s) by lia. rewrite E1, E2. lia.
Qed.

Definition chk_edge_map (e ne fl : Z) : bool :=
  let nt := with_maps CEdge 0 e ne (edge_nt e ne fl) in
  let i := ne / 4 in
  (vget (n_perm nt) i =? e / 4) && (vget (n_sign nt) i =? if fl =? 0 then 1 else -1) && (2 * vget (n_oself nt) (e / 4) =? ROOT_LEN) && (2 * vget (n_oneigh nt) i =? ROOT_LEN).
Lemma chk_edge_all e ne fl : 0 <= e < 12 -> 0 <= ne < 12 -> 0 <= fl < 2 -> chk_edge_map e ne fl = true.
Proof.
  intros Hf Hn Ho.
  assert (A : zall 12 (fun f => zall 12 (fun nf => zall 2 (chk_edge_map f nf))) = true) by (vm_compute; reflexivity).
  pose proof (zall_spec _ _ e A Hf) as A1. cbv beta in A1.
  pose proof (zall_spec _ _ ne A1 Hn) as A2. cbv beta in A2.
  exact (zall_spec _ _ fl A2 Ho).
Qed.
Lemma cte_on p e ne fl i : 0 <= ne < 12 -> 0 <= i < 3 ->
  vget (coordinates_transform_edge p e ne fl) i =
  match at_axis CEdge ne i with Some b => side b | None => i32 (if fl =? 0 then vget p (e / 4) else ROOT_LEN - vget p (e / 4)) end.
Proof.
  intros Hn Hi. unfold coordinates_transform_edge. cbv zeta. generalize (i32 (if fl =? 0 then vget p (e / 4) else ROOT_LEN - vget p (e / 4))). intros m.
  assert (A : ne = 0 \/ ne = 1 \/ ne = 2 \/ ne = 3 \/ ne = 4 \/ ne = 5 \/ ne = 6 \/ ne = 7 \/ ne = 8 \/ ne = 9 \/ ne = 10 \/ ne = 11) by lia.
  assert (B : i = 0 \/ i = 1 \/ i = 2) by lia.
  destruct A as [->|[->|[->|[->|[->|[->|[->|[->|[->|[->|[->| ->]]]]]]]]]]], B as [->|[->| ->]]; reflexivity.
Qed.
Lemma edge_agree e ne fl t p : 0 <= e < 12 -> 0 <= ne < 12 -> 0 <= fl < 2 -> on D3 CEdge e p ->
  nt_forward D3 (with_maps CEdge t e ne (edge_nt e ne fl)) p = coordinates_transform_edge p e ne fl.
Proof.
  intros He Hn Hl O. apply (vget_ext D3); [apply forward_flat|discriminate|]. intros i Hi. cbn [nd] in Hi.
  rewrite cte_on by auto. pose proof (edge_nt_ok e ne fl t He Hn Hl) as OK.
  destruct (forward_on D3 _ p OK O) as (FI & _ & G). specialize (G i Hi). cbn [n_type n_neigh with_maps] in G.
  destruct (at_axis CEdge ne i) as [b|] eqn:EA; [exact G|].
  rewrite forward_get by auto. cbn [at_axis] in EA. destruct (i =? ne / 4) eqn:EI; [|discriminate]. assert (i = ne / 4) by lia. subst i.
  pose proof (chk_edge_all e ne fl He Hn Hl) as C. unfold chk_edge_map in C. cbv zeta in C. rewrite !andb_true_iff in C. destruct C as (((C1 & C2) & C3) & C4).
  f_equal. unfold exact. cbn [n_perm n_sign n_oself n_oneigh with_maps] in *. 
  assert (E1 : vget (fst (fst (fst (edge_nt e ne fl)))) (ne / 4) = e / 4) by lia. rewrite E1.
  destruct (fl =? 0); lia.
Qed.
Lemma ctc_on d k i : 0 <= k < children d -> 0 <= i < nd d -> vget (coordinates_transform_corner d k) i = side (Z.testbit k i).
Proof.
  intros Hk Hi. assert (A : zall (children d) (fun k => zall (nd d) (fun i => vget (coordinates_transform_corner d k) i =? side (Z.testbit k i))) = true) by (destruct d; vm_compute; reflexivity).
  pose proof (zall_spec _ _ k A Hk) as A1. cbv beta in A1. pose proof (zall_spec _ _ i A1 Hi) as A2. cbv beta in A2. lia.
Qed.
Lemma corner_agree d k nk t p : 0 <= k < children d -> 0 <= nk < children d -> on d CCorner k p ->
  nt_forward d (with_maps CCorner t k nk (corner_nt d k nk)) p = coordinates_transform_corner d nk.
Proof.
  intros Hk Hn O. apply (vget_ext d); [apply forward_flat|intros ->; reflexivity|]. intros i Hi.
  rewrite ctc_on by auto. destruct (forward_on d _ p (corner_nt_ok d k nk t Hk Hn) O) as (FI & _ & G). exact (G i Hi).
Qed.
