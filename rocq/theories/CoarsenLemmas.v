(** * The array algorithm of p4est_coarsen_ext works on the list of leaves *)

From Coq Require Import ZArith List Bool Lia Arith.
From Verif Require Import Quad Spec Interval QuadLemmas Adapt AdaptSpec ListLemmas RefineLemmas.
Import ListNotations.
Open Scope Z_scope.

(** the list of leaves in an array with a hole *)
Definition logical {A} (arr : list A) (start len : nat) : list A := firstn start arr ++ skipn (start + len) arr.

(** position p of the list in the array *)
Definition phys (start len p : nat) : nat := if Nat.ltb p start then p else (p + len)%nat.

Section L.
  Context {A : Type}.

  Lemma logical_length (arr : list A) start len : (start + len <= length arr)%nat ->
    length (logical arr start len) = (length arr - len)%nat.
  Proof. intros H. unfold logical. rewrite app_length, firstn_length, skipn_length. lia. Qed.

  Lemma nth_logical (arr : list A) start len p : (start + len <= length arr)%nat ->
    nth_error (logical arr start len) p = nth_error arr (phys start len p).
  Proof.
    intros H. unfold logical, phys. destruct (Nat.ltb_spec p start).
    - rewrite nth_error_app1 by (rewrite firstn_length; lia). apply nth_firstn. lia.
    - rewrite nth_error_app2 by (rewrite firstn_length; lia). rewrite firstn_length, nth_skipn. f_equal. lia.
  Qed.

  Lemma logical_lset (arr : list A) start len p v : (start + len <= length arr)%nat ->
    (p < length arr - len)%nat ->
    logical (lset arr (phys start len p) v) start len = lset (logical arr start len) p v.
  Proof.
    intros H Hp. assert (P : (phys start len p < length arr)%nat) by (unfold phys; destruct (Nat.ltb_spec p start); lia).
    apply list_ext. intros i. rewrite nth_logical by (rewrite length_lset by auto; auto).
    rewrite !nth_lset by (rewrite ?logical_length; auto). rewrite nth_logical by auto.
    destruct (Nat.eqb_spec i p) as [->|N]; [rewrite Nat.eqb_refl; reflexivity|].
    destruct (Nat.eqb_spec (phys start len i) (phys start len p)) as [E|E]; [|reflexivity].
    exfalso. apply N. unfold phys in E. destruct (Nat.ltb_spec i start), (Nat.ltb_spec p start); lia.
  Qed.

  (** the hole moves by one *)
  Lemma logical_advance (arr : list A) start len v : (start + len < length arr)%nat ->
    nth_error arr (start + len) = Some v -> logical (lset arr start v) (start + 1) len = logical arr start len.
  Proof.
    intros H E. apply list_ext. intros i. rewrite !nth_logical by (rewrite ?length_lset; lia).
    rewrite nth_lset by lia. unfold phys.
    destruct (Nat.ltb_spec i (start + 1)), (Nat.ltb_spec i start), (Nat.eqb_spec i start),
       (Nat.eqb_spec (i + len) start); try lia; try reflexivity.
    all: subst; rewrite <- E; f_equal; lia.
  Qed.

  Definition lsets (L : list A) (p : nat) (l : list A) : list A := firstn p L ++ l ++ skipn (p + length l) L.

  Lemma lsets_cons (L : list A) p x l : (p + length (x :: l) <= length L)%nat ->
    lsets (lset L p x) (p + 1) l = lsets L p (x :: l).
  Proof.
    intros H. cbn [length] in H. unfold lsets. replace (p + 1)%nat with (S p) by lia.
    rewrite firstn_lset by lia. rewrite <- app_assoc. cbn [app length]. f_equal. f_equal. f_equal.
    apply list_ext. intros i. rewrite !nth_skipn, nth_lset by lia. 
    destruct (Nat.eqb_spec (S p + length l + i) p); [lia|]. f_equal. lia.
  Qed.

  Lemma lsets_length (L : list A) p l : (p + length l <= length L)%nat -> length (lsets L p l) = length L.
  Proof. intros H. unfold lsets. rewrite !app_length, firstn_length, skipn_length. lia. Qed.

  Lemma skipn_logical (arr : list A) start len p : (start <= p)%nat -> (start + len <= length arr)%nat ->
    skipn p (logical arr start len) = skipn (p + len) arr.
  Proof.
    intros H H'. apply list_ext. intros i. rewrite !nth_skipn, nth_logical by auto. f_equal.
    unfold phys. destruct (Nat.ltb_spec (p + i) start); lia.
  Qed.
End L.

Section C.
  Variable d : dim.
  Variables (St D : Type).
  Variable init_fn : St -> Z -> quad -> St * D.
  Variable coarsen_fn : St -> Z -> list (leaf D) -> St * list D * bool.
  Variable replace_fn : option (St -> Z -> list (leaf D) -> leaf D -> St * D).
  Variables (recursive orphans : bool).
  Variable jt : Z.
  Notation CH := (childrenn d).
  Notation step := (coarsen_step d St D init_fn coarsen_fn replace_fn recursive orphans jt).
  Notation loop := (coarsen_loop d St D init_fn coarsen_fn replace_fn recursive orphans jt).
  Notation astep := (abs_step d St D init_fn coarsen_fn replace_fn recursive orphans jt).
  Notation aloop := (abs_loop d St D init_fn coarsen_fn replace_fn recursive orphans jt).

  Lemma rezip_length (l : list (leaf D)) : forall ds, length (rezip D l ds) = length l.
  Proof.
    induction l as [|(q, v) l IH]; intros ds; [reflexivity|]. destruct ds; [reflexivity|]. cbn. f_equal. apply IH.
  Qed.

  Lemma child_id_lt q : (Z.to_nat (child_id d q) < CH)%nat.
  Proof.
    unfold child_id, ancestor_id. destruct (_ =? 0); [destruct d; cbn; lia|].
    destruct (nz (Z.land (qx q) _)), (nz (Z.land (qy q) _)), (nz (Z.land (qz q) _)), d; cbn; lia.
  Qed.

  Record sim (incount : nat) (st : cst St D) (s : St) (L : list (leaf D)) (w : nat) : Prop := {
    s_s : c_s _ _ st = s;
    s_L : logical (c_arr _ _ st) (c_start _ _ st) (c_length _ _ st) = L;
    s_w : c_window _ _ st = w;
    s_len : length (c_arr _ _ st) = incount;
    s_hole : (c_start _ _ st + c_length _ _ st <= incount)%nat;
    s_win : (w < c_start _ _ st)%nat \/ (w = c_start _ _ st /\ (c_start _ _ st + c_length _ _ st = incount)%nat);
    s_start : (c_start _ _ st <= w + CH)%nat }.

  Lemma sim_length incount st s L w : sim incount st s L w -> length L = (incount - c_length _ _ st)%nat.
  Proof.
    intros H. rewrite <- (s_L _ _ _ _ _ H), logical_length; rewrite (s_len _ _ _ _ _ H); [auto|apply (s_hole _ _ _ _ _ H)].
  Qed.

  Lemma cidx_phys st zz : cidx St D st zz = phys (c_start _ _ st) (c_length _ _ st) (c_window _ _ st + zz).
  Proof. unfold cidx, phys. destruct (Nat.ltb _ _); lia. Qed.

  Lemma read_family_spec incount st s L w : sim incount st s L w ->
    forall n zz acc, (w + zz + n <= length L)%nat ->
    exists pre, read_family d St D n zz st acc = Some (acc ++ pre, ids_from d D (Z.of_nat zz) (firstn n (skipn (w + zz) L))) /\
      (ids_from d D (Z.of_nat zz) (firstn n (skipn (w + zz) L)) = true -> pre = firstn n (skipn (w + zz) L)) /\
      (n <> 0%nat -> exists c r, nth_error L (w + zz) = Some c /\ pre = c :: r).
  Proof.
    intros H. induction n as [|n IH]; intros zz acc Hn.
    - exists []. cbn. rewrite app_nil_r. split; [reflexivity|]. split; [reflexivity|]. intros N; contradiction.
    - cbn [read_family]. rewrite cidx_phys, (s_w _ _ _ _ _ H).
      pose proof (s_hole _ _ _ _ _ H) as Hh. rewrite <- nth_logical by (rewrite (s_len _ _ _ _ _ H); auto). rewrite (s_L _ _ _ _ _ H).
      destruct (nth_error L (w + zz)) as [lf|] eqn:E; [|apply nth_error_None in E; lia].
      rewrite (skipn_cons L _ lf E). cbn [firstn ids_from].
      destruct (Z.of_nat zz =? child_id d (fst lf)) eqn:Ei; cbn [andb].
      + destruct (IH (zz + 1)%nat (acc ++ [lf]) ltac:(lia)) as (pre & R & F & _).
        replace (w + (zz + 1))%nat with (S (w + zz)) in * by lia.
        replace (Z.of_nat (zz + 1)) with (Z.of_nat zz + 1) in * by lia.
        exists (lf :: pre). rewrite R, <- app_assoc. split; [reflexivity|].
        split; [intros I; rewrite (F I); reflexivity|]. intros _. eauto.
      + exists [lf]. split; [reflexivity|]. split; [discriminate|]. eauto.
  Qed.

  Lemma store_family_spec st incount : forall l zz arr L,
    length arr = incount -> (c_start _ _ st + c_length _ _ st <= incount)%nat ->
    logical arr (c_start _ _ st) (c_length _ _ st) = L -> (c_window _ _ st + zz + length l <= length L)%nat ->
    exists arr', store_family St D l zz st arr = Some arr' /\ length arr' = incount /\
      logical arr' (c_start _ _ st) (c_length _ _ st) = lsets L (c_window _ _ st + zz) l.
  Proof.
    induction l as [|x l IH]; intros zz arr L EL EH EQ HL.
    - exists arr. split; [reflexivity|]. split; [auto|]. unfold lsets. cbn [app length].
      rewrite Nat.add_0_r, firstn_skipn. auto.
    - cbn [store_family]. rewrite cidx_phys. cbn [length] in HL.
      assert (LL : length L = (incount - c_length _ _ st)%nat) by (rewrite <- EQ, logical_length; lia).
      assert (P : (phys (c_start _ _ st) (c_length _ _ st) (c_window _ _ st + zz) < length arr)%nat).
      { unfold phys. destruct (Nat.ltb_spec (c_window _ _ st + zz) (c_start _ _ st)); lia. }
      rewrite aset_ok by auto.
      destruct (IH (zz + 1)%nat (lset arr (phys (c_start _ _ st) (c_length _ _ st) (c_window _ _ st + zz)) x)
                  (lset L (c_window _ _ st + zz) x)) as (arr' & S1 & S2 & S3).
      { rewrite length_lset by auto. auto. } { auto. }
      { rewrite logical_lset by lia. rewrite EQ. reflexivity. }
      { rewrite length_lset by lia. lia. }
      exists arr'. split; [exact S1|]. split; [exact S2|]. rewrite S3.
      rewrite Nat.add_assoc. apply lsets_cons. cbn [length]. lia.
  Qed.

  (** moving the window by one *)
  Definition move (incount : nat) (s : St) (arr : list (leaf D)) (w start len : nat) (pl : Z -> Z) (num : Z) : option (cst St D) :=
    let window := (w + 1)%nat in
    if Nat.eqb window start && Nat.ltb (start + len) incount then
      let arr' :=
        if Nat.ltb 0 len then
          match nth_error arr (start + len) with
          | None => None
          | Some cl => aset arr start cl
          end
        else Some arr in
      match arr' with
      | None => None
      | Some arr => Some (mkcst _ _ s arr window (window + 1) len pl num)
      end
    else Some (mkcst _ _ s arr window start len pl num).

  Lemma move_sim incount s arr w start len pl num L :
    length arr = incount -> (start + len <= incount)%nat -> (w < start)%nat -> (start <= w + CH)%nat ->
    logical arr start len = L ->
    exists st', move incount s arr w start len pl num = Some st' /\ sim incount st' s L (w + 1) /\
      c_length _ _ st' = len /\ c_pl _ _ st' = pl /\ c_num _ _ st' = num.
  Proof.
    intros EL EH Hw Hs EQ. unfold move. pose proof (CHpos d) as C4.
    destruct (Nat.eqb_spec (w + 1) start) as [E|E]; cbn [andb].
    - destruct (Nat.ltb_spec (start + len) incount) as [Lt|Ge].
      + destruct (Nat.ltb_spec 0 len) as [Lp|L0].
        * destruct (nth_error arr (start + len)) as [cl|] eqn:En; [|apply nth_error_None in En; lia].
          rewrite aset_ok by lia. eexists. split; [reflexivity|]. split; [|auto].
          constructor; cbn [c_s c_arr c_window c_start c_length]; auto; try lia.
          -- rewrite <- EQ, <- (logical_advance arr start len cl); [|lia|auto]. f_equal. lia.
          -- rewrite length_lset; lia.
        * eexists. split; [reflexivity|]. split; [|auto].
          constructor; cbn [c_s c_arr c_window c_start c_length]; auto; try lia.
          replace len with 0%nat in * by lia. unfold logical in *. rewrite Nat.add_0_r, firstn_skipn in *. auto.
      + eexists. split; [reflexivity|]. split; [|auto].
        constructor; cbn [c_s c_arr c_window c_start c_length]; auto; try lia.
    - eexists. split; [reflexivity|]. split; [|auto].
      constructor; cbn [c_s c_arr c_window c_start c_length]; auto; try lia.
  Qed.

  (** one step *)
  Lemma step_sim incount st s L w : sim incount st s L w -> (w + CH <= length L)%nat ->
    exists st', step incount st = Some st' /\
      (let '(s', L', w') := astep s L w in sim incount st' s' L' w' /\
        ((length L' = length L /\ map fst L' = map fst L /\ c_length _ _ st' = c_length _ _ st /\ c_pl _ _ st' = c_pl _ _ st /\ c_num _ _ st' = c_num _ _ st) \/
         (exists c0, nth_error L w = Some c0 /\ (length L' + (CH - 1) = length L)%nat /\
           c_length _ _ st' = (c_length _ _ st + (CH - 1))%nat /\
           c_pl _ _ st' = bump (bump (c_pl _ _ st) (ql (fst c0)) (- children d)) (ql (parent d (fst c0))) 1 /\
           c_num _ _ st' = c_num _ _ st - (children d - 1)))).
  Proof.
    intros H Hw. pose proof (CHpos d) as C4. pose proof (sim_length _ _ _ _ _ H) as LL.
    pose proof (s_hole _ _ _ _ _ H) as HH. pose proof (s_len _ _ _ _ _ H) as HA. pose proof (s_w _ _ _ _ _ H) as HW.
    pose proof (s_start _ _ _ _ _ H) as HS. pose proof (s_L _ _ _ _ _ H) as HL.
    assert (WS : (w < c_start _ _ st)%nat).
    { destruct (s_win _ _ _ _ _ H) as [X|(X & Y)]; lia. }
    destruct (nth_error L w) as [c0|] eqn:E0; [|apply nth_error_None in E0; lia].
    unfold coarsen_step.
    destruct (read_family_spec _ _ _ _ _ H CH 0 [] ltac:(lia)) as (pre & R & F & NE).
    rewrite Nat.add_0_r in *. change (Z.of_nat 0) with 0 in *. rewrite R. cbn [app].
    destruct (NE ltac:(lia)) as (c0' & r & E0' & Epre). rewrite E0 in E0'. injection E0' as <-.
    unfold abs_step. rewrite (skipn_cons L w c0 E0).
    destruct CH as [|CH'] eqn:ECH; [lia|]. cbn [firstn]. rewrite <- ECH in *.
    set (fam := c0 :: firstn CH' (skipn (S w) L)) in *.
    assert (Efam : firstn CH (skipn w L) = fam) by (rewrite ECH, (skipn_cons L w c0 E0); reflexivity).
    rewrite Efam in *.
    assert (FL : length fam = CH).
    { rewrite <- Efam, firstn_length, skipn_length. lia. }
    assert (NB : Nat.leb incount (c_window _ _ st) = false) by (apply Nat.leb_gt; lia).
    destruct (ids_from d D 0 fam) eqn:Eids.
    - rewrite (F eq_refl). rewrite (s_s _ _ _ _ _ H).
      destruct (coarsen_fn s jt fam) as ((s1, ds), yes) eqn:Eask.
      destruct (store_family_spec st incount (rezip D fam ds) 0 (c_arr _ _ st) L HA HH HL) as (arr1 & S1 & S2 & S3).
      { rewrite rezip_length, FL, HW. lia. }
      rewrite S1. rewrite Nat.add_0_r, HW in S3.
      assert (R0 : exists c1 r1, rezip D fam ds = c1 :: r1 /\ fst c1 = fst c0).
      { unfold fam. destruct c0 as (q0, v0). destruct ds as [|v ds]; cbn; eexists; eexists; split; reflexivity. }
      destruct R0 as (c1 & r1 & R0 & R1).
      destruct yes.
      + rewrite R0. cbv zeta. rewrite R1. unfold make_parent. rewrite <- R0.
        destruct (init_fn s1 jt (parent d (fst c0))) as (s2, v) eqn:Einit.
        assert (RP : (match replace_fn with None => (s2, (parent d (fst c0), v)) | Some f => let (s3, v2) := f s2 jt (rezip D fam ds) (parent d (fst c0), v) in (s3, (parent d (fst c0), v2)) end) =
          (let (s3, v3) := match replace_fn with None => (s2, v) | Some f => f s2 jt (rezip D fam ds) (parent d (fst c0), v) end in (s3, (parent d (fst c0), v3)))).
        { destruct replace_fn as [f|]; [|reflexivity]. destruct (f s2 jt (rezip D fam ds) (parent d (fst c0), v)). reflexivity. }
        rewrite RP. clear RP.
        destruct (match replace_fn with None => (s2, v) | Some f => f s2 jt (rezip D fam ds) (parent d (fst c0), v) end) as (s3, v3).
        rewrite cidx_phys, Nat.add_0_r, HW.
        assert (EP : phys (c_start _ _ st) (c_length _ _ st) w = w).
        { unfold phys. destruct (Nat.ltb_spec w (c_start _ _ st)); lia. }
        rewrite EP. rewrite aset_ok by lia.
        set (pv := (parent d (fst c0), v3)).
        assert (NL : logical (lset arr1 w pv) (w + 1) (c_length _ _ st + (CH - 1)) = firstn w L ++ pv :: skipn (w + CH) L).
        { pose proof (logical_lset arr1 (c_start _ _ st) (c_length _ _ st) w pv ltac:(lia) ltac:(lia)) as E1. rewrite EP, S3 in E1.
          unfold logical at 1. replace (w + 1)%nat with (S w) at 1 by lia. rewrite firstn_lset by lia.
          assert (FW : firstn w arr1 = firstn w L).
          { assert (X : firstn w (logical arr1 (c_start _ _ st) (c_length _ _ st)) = firstn w L).
            { rewrite S3. unfold lsets. rewrite firstn_app, firstn_firstn, firstn_length, Nat.min_id.
              replace (w - Nat.min w (length L))%nat with 0%nat by lia. cbn. apply app_nil_r. }
            rewrite <- X. unfold logical. rewrite firstn_app_le by (rewrite firstn_length; lia). rewrite firstn_firstn. f_equal. lia. }
          rewrite FW, <- app_assoc. cbn [app]. f_equal. f_equal.
          assert (X : skipn (w + CH) (logical arr1 (c_start _ _ st) (c_length _ _ st)) = skipn (w + CH) L).
          { rewrite S3. apply list_ext. intros i. unfold lsets. rewrite !nth_skipn. rewrite rezip_length, FL.
            rewrite nth_error_app2 by (rewrite firstn_length; lia).
            rewrite nth_error_app2 by (rewrite firstn_length, rezip_length, FL; lia).
            rewrite firstn_length, rezip_length, FL, nth_skipn. f_equal. lia. }
          rewrite <- X, skipn_logical by lia. apply list_ext. intros i. rewrite !nth_skipn, nth_lset by lia.
          destruct (Nat.eqb_spec (w + 1 + (c_length _ _ st + (CH - 1)) + i) w); [lia|]. f_equal. lia. }
        change (fst pv) with (parent d (fst c0)).
        destruct (Nat.leb (Z.to_nat (child_id d (parent d (fst c0)))) w && recursive) eqn:Eb.
        * eexists. split; [reflexivity|]. split.
          { constructor; cbn [c_s c_arr c_window c_start c_length]; auto.
            - rewrite length_lset; lia.
            - lia.
            - left. lia.
            - pose proof (child_id_lt (parent d (fst c0))). lia. }
          right. exists c0. cbn [c_length c_pl c_num].
          split; [auto|]. split; [|auto]. rewrite app_length, firstn_length. cbn [length]. rewrite skipn_length. lia.
        * destruct (move_sim incount s3 (lset arr1 w pv) w (w + 1) (c_length _ _ st + (CH - 1))
             (bump (bump (c_pl _ _ st) (ql (fst c0)) (- children d)) (ql (parent d (fst c0))) 1) (c_num _ _ st - (children d - 1)) _
             ltac:(rewrite length_lset; lia) ltac:(lia) ltac:(lia) ltac:(lia) NL) as (st' & M1 & M2 & M3 & M4 & M5).
          exists st'. split; [exact M1|]. split; [exact M2|]. right. exists c0.
          split; [auto|]. split; [rewrite app_length, firstn_length; cbn [length]; rewrite skipn_length; lia|]. auto.
      + rewrite NB. cbn [andb].
        destruct (move_sim incount s1 arr1 w (c_start _ _ st) (c_length _ _ st) (c_pl _ _ st) (c_num _ _ st) _ S2 HH WS HS S3)
          as (st' & M1 & M2 & M3 & M4 & M5).
        exists st'. rewrite HW. split; [exact M1|]. unfold lsets in M2. rewrite rezip_length, FL in M2. split; [exact M2|].
        left. split; [|split; [|auto]].
        * rewrite !app_length, rezip_length, FL, firstn_length, skipn_length. lia.
        * rewrite !map_app, rezip_fst, <- Efam, <- !map_app. f_equal.
          rewrite skipn_plus. rewrite firstn_skipn, firstn_skipn. reflexivity.
    - destruct orphans eqn:Eo.
      + rewrite Epre, (s_s _ _ _ _ _ H).
        destruct (coarsen_fn s jt [c0]) as ((s1, ds), yes) eqn:Eask.
        destruct (store_family_spec st incount (rezip D [c0] ds) 0 (c_arr _ _ st) L HA HH HL) as (arr1 & S1 & S2 & S3).
        { rewrite rezip_length, HW. cbn [length]. lia. }
        rewrite S1. rewrite Nat.add_0_r, HW in S3. rewrite NB. cbn [andb].
        destruct (move_sim incount s1 arr1 w (c_start _ _ st) (c_length _ _ st) (c_pl _ _ st) (c_num _ _ st) _ S2 HH WS HS S3)
          as (st' & M1 & M2 & M3 & M4 & M5).
        exists st'. rewrite HW. split; [exact M1|]. unfold lsets in M2. rewrite rezip_length in M2. cbn [length] in M2. split; [exact M2|].
        left. split; [|split; [|auto]].
        * rewrite !app_length, rezip_length, firstn_length, skipn_length. cbn [length]. lia.
        * rewrite !map_app, rezip_fst, <- !map_app. f_equal.
          rewrite skipn_plus. rewrite (skipn_cons L w c0 E0). cbn [skipn app].
          rewrite <- (firstn_skipn w L) at 3. rewrite (skipn_cons L w c0 E0). reflexivity.
      + rewrite NB. cbn [andb]. rewrite (s_s _ _ _ _ _ H).
        destruct (move_sim incount s (c_arr _ _ st) w (c_start _ _ st) (c_length _ _ st) (c_pl _ _ st) (c_num _ _ st) _ HA HH WS HS HL)
          as (st' & M1 & M2 & M3 & M4 & M5).
        exists st'. rewrite HW. split; [exact M1|]. split; [exact M2|]. left. auto.
  Qed.
End C.
