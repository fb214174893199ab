(** * The array/list algorithm of p4est_refine_ext computes the recursive refinement *)

From Coq Require Import ZArith List Bool Lia Arith.
From Verif Require Import Quad Spec Interval QuadLemmas Adapt AdaptSpec ListLemmas.
Import ListNotations.
Open Scope Z_scope.

Lemma nlev_app {D} i (a b : list (leaf D)) : nlev i (a ++ b) = nlev i a + nlev i b.
Proof. unfold nlev. rewrite filter_app, app_length. apply Nat2Z.inj_add. Qed.
Lemma maxlev_app {D} (a b : list (leaf D)) : maxlev (a ++ b) = Z.max (maxlev a) (maxlev b).
Proof.
  unfold maxlev. induction a as [|x a IH]; cbn [app fold_right].
  - assert (0 <= fold_right (fun lf m => Z.max (ql (fst lf)) m) 0 b); [|lia].
    induction b; cbn [fold_right]; lia.
  - rewrite IH. lia.
Qed.
Lemma maxlev_nonneg {D} (b : list (leaf D)) : 0 <= maxlev b.
Proof. unfold maxlev. induction b; cbn [fold_right]; lia. Qed.

Section R.
  Variable d : dim.
  Variables (St D : Type).
  Variable init_fn : St -> Z -> quad -> St * D.
  Variable refine_fn : St -> Z -> quad -> D -> St * D * bool.
  Variable replace_fn : option (St -> Z -> leaf D -> list (leaf D) -> St * list D).
  Variable recursive : bool.
  Variable allowed : Z.
  Variable nt : Z.
  Notation CH := (childrenn d).
  Notation loop := (refine_loop d St D init_fn refine_fn replace_fn recursive allowed nt).
  Notation stepf := (refine_step d St D init_fn refine_fn replace_fn recursive allowed nt).
  Notation split := (split_leaf d St D init_fn replace_fn nt).
  Notation kids := (make_children d St D init_fn replace_fn nt).
  Notation VISIT := (visit d St D refine_fn init_fn replace_fn recursive allowed nt).

  Lemma rezip_fst cs : forall ds, map fst (rezip D cs ds) = map fst cs.
  Proof.
    induction cs as [|(q, v) cs IH]; intros ds; [reflexivity|]. destruct ds as [|w ds]; [reflexivity|].
    cbn. f_equal. apply IH.
  Qed.

  Lemma init_walk : forall l s, init_list St D init_fn s nt l =
    walk (fun s q => let (s', v) := init_fn s nt q in (s', [(q, v)])) s l.
  Proof.
    induction l as [|q l IH]; intros s; [reflexivity|]. cbn [init_list walk].
    destruct (init_fn s nt q) as (s1, v). rewrite IH.
    destruct (walk _ s1 l) as (s2, r). reflexivity.
  Qed.

  Lemma init_fst : forall l s, map fst (snd (init_list St D init_fn s nt l)) = l.
  Proof.
    induction l as [|q l IH]; intros s; [reflexivity|]. cbn [init_list].
    destruct (init_fn s nt q) as (s1, v). specialize (IH s1).
    destruct (init_list St D init_fn s1 nt l) as (s2, r). cbn [snd map fst] in *. f_equal. auto.
  Qed.

  Lemma split_kids s lf : split s lf = kids s lf.
  Proof.
    unfold split_leaf, make_children. rewrite init_walk, childrenv_child.
    replace (map (child d (fst lf)) (cids d)) with (map (fun i => child d (fst lf) (Z.of_nat i)) (seq 0 CH))
      by (destruct d; reflexivity). reflexivity.
  Qed.

  Lemma split_fst s lf : map fst (snd (split s lf)) = childrenv d (fst lf).
  Proof.
    unfold split_leaf. pose proof (init_fst (childrenv d (fst lf)) s) as H.
    destruct (init_list St D init_fn s nt (childrenv d (fst lf))) as (s1, ch). cbn [snd] in H.
    destruct replace_fn as [f|]; [|exact H].
    destruct (f s1 nt lf ch) as (s2, ds). cbn [snd]. rewrite rezip_fst. exact H.
  Qed.

  Lemma split_length s lf : length (snd (split s lf)) = CH.
  Proof.
    pose proof (f_equal (@length _) (split_fst s lf)) as H. rewrite map_length in H. rewrite H. destruct d; reflexivity.
  Qed.

  Lemma split_level s lf c : In c (snd (split s lf)) -> ql (fst c) = ql (fst lf) + 1.
  Proof.
    intros I. apply (in_map fst) in I. rewrite split_fst in I.
    destruct d; cbn in I; repeat destruct I as [<-|I]; try reflexivity; destruct I.
  Qed.

  Section Loop.
    Variable orig : list (leaf D).
    Notation incount := (length orig).

    (** positions and contents at the head of the loop; [out] is what has been
        written so far and [k] the number of refinements *)
    Record inv (st : rst St D) (k : nat) (out : list (leaf D)) : Prop := {
      i_len : length (r_arr _ _ st) = (incount + (CH - 1) * k)%nat;
      i_pos : (r_cur _ _ st + length (r_list _ _ st) = r_rest _ _ st + (CH - 1) * k)%nat;
      i_rest : (r_rest _ _ st <= incount)%nat;
      i_cur : (r_rest _ _ st < incount)%nat -> (r_cur _ _ st <= r_rest _ _ st)%nat;
      i_unread : forall j, (r_rest _ _ st <= j < incount)%nat -> nth_error (r_arr _ _ st) j = nth_error (map Some orig) j;
      i_out : firstn (r_cur _ _ st) (r_arr _ _ st) = map Some out;
      i_cout : length out = r_cur _ _ st;
      i_k : (1 <= k)%nat;
      i_first : r_first _ _ st = false }.

    Definition unread (st : rst St D) : list (leaf D * bool) :=
      map (fun lf => (lf, false)) (skipn (r_rest _ _ st) orig).

    Lemma read_more_ok arr : forall n l rest, (rest + n <= incount)%nat ->
      (forall j, (rest <= j < incount)%nat -> nth_error arr j = nth_error (map Some orig) j) ->
      read_more D n arr l rest = Some (l ++ map (fun lf => (lf, false)) (firstn n (skipn rest orig)), (rest + n)%nat).
    Proof.
      induction n as [|n IH]; intros l rest H U.
      - cbn. rewrite app_nil_r, Nat.add_0_r. reflexivity.
      - destruct (nth_error orig rest) as [lf|] eqn:E; [|apply nth_error_None in E; lia].
        cbn [read_more]. unfold aget. rewrite U by lia. rewrite nth_error_map, E. cbn [option_map].
        rewrite IH; [|lia|intros; apply U; lia].
        rewrite (skipn_cons orig rest lf E). cbn [firstn map]. replace (rest + 1)%nat with (S rest) by lia.
        rewrite <- app_assoc. cbn [app]. f_equal. f_equal. lia.
    Qed.

    (** what one visit does to the loop *)
    Definition after (st st' : rst St D) (k : nat) (out o : list (leaf D)) (s' : St) (tl : list (leaf D * bool)) : Prop :=
      exists m k' more,
      (forall fuel, loop (m + fuel) incount st = loop fuel incount st') /\
      inv st' k' (out ++ o) /\ r_s _ _ st' = s' /\
      r_list _ _ st' = tl ++ more /\ more ++ unread st' = unread st /\
      (forall i, r_pl _ _ st' i = r_pl _ _ st i + nlev i o) /\
      r_max _ _ st' = Z.max (r_max _ _ st) (maxlev o).

    Lemma CHpos : (4 <= CH)%nat. Proof. destruct d; cbn; lia. Qed.

    (** the else branch: write *)
    Lemma write_sim st k out lf pad tl s1 lf' :
      inv st k out -> r_list _ _ st = (lf, pad) :: tl ->
      (if recursive || negb pad then
          let '(s, v, yes) := refine_fn (r_s _ _ st) nt (fst lf) (snd lf) in
          (s, (fst lf, v), yes && (ql (fst lf) <? allowed))
        else (r_s _ _ st, lf, false)) = (s1, lf', false) -> fst lf' = fst lf -> 0 <= r_max _ _ st ->
      exists st', stepf incount st lf pad tl = Some st' /\ after st st' k out [lf'] s1 tl.
    Proof.
      intros I El Ed Ef Hm.
      pose proof (i_pos _ _ _ I) as P. rewrite El in P. cbn [length] in P. pose proof CHpos as C4.
      assert (CURLEN : (r_cur _ _ st < length (r_arr _ _ st))%nat).
      { rewrite (i_len _ _ _ I). pose proof (i_rest _ _ _ I). 
        destruct (Nat.lt_ge_cases (r_rest _ _ st) incount) as [L|L]; [pose proof (i_cur _ _ _ I L)|]; lia. }
      (* reading ahead *)
      set (cond := Nat.ltb (r_rest _ _ st) incount && Nat.eqb (r_cur _ _ st) (r_rest _ _ st)).
      set (n := if cond then Nat.min (incount - r_rest _ _ st) toread else 0%nat).
      assert (Hn : (r_rest _ _ st + n <= incount)%nat).
      { unfold n. pose proof (i_rest _ _ _ I). destruct cond; lia. }
      assert (MORE : (if cond then read_more D (Nat.min (incount - r_rest _ _ st) toread) (r_arr _ _ st) tl (r_rest _ _ st)
                      else Some (tl, r_rest _ _ st)) =
              Some (tl ++ map (fun lf => (lf, false)) (firstn n (skipn (r_rest _ _ st) orig)), (r_rest _ _ st + n)%nat)).
      { unfold n. destruct cond eqn:Ec.
        - unfold n in Hn. apply read_more_ok; [auto|apply (i_unread _ _ _ I)].
        - cbn. rewrite app_nil_r, Nat.add_0_r. reflexivity. }
      assert (GAP : (r_rest _ _ st + n < incount)%nat -> (r_cur _ _ st + 1 <= r_rest _ _ st + n)%nat).
      { intros L. pose proof (i_cur _ _ _ I ltac:(lia)). unfold n in *. unfold cond in *.
        destruct (Nat.ltb_spec (r_rest _ _ st) incount); [|lia]. cbn [andb] in *.
        destruct (Nat.eqb_spec (r_cur _ _ st) (r_rest _ _ st)); [|lia]. unfold toread in *. lia. }
      set (more := map (fun lf => (lf, false)) (firstn n (skipn (r_rest _ _ st) orig))) in *.
      assert (LM : length more = n).
      { unfold more. rewrite map_length, firstn_length, skipn_length. lia. }
      exists (mkrst _ _ s1 (lset (r_arr _ _ st) (r_cur _ _ st) (Some lf')) (tl ++ more) (r_cur _ _ st + 1)
              (r_rest _ _ st + n) false (bump (r_pl _ _ st) (ql (fst lf')) 1) (Z.max (r_max _ _ st) (ql (fst lf')))).
      match goal with |- ?A /\ _ => assert (STEP : A) end.
      { unfold refine_step. rewrite (i_first _ _ _ I), Ed. fold cond. rewrite MORE, aset_ok by auto. reflexivity. }
      split; [exact STEP|].
      exists 1%nat, k, more. split; [|split; [|split; [reflexivity|split; [reflexivity|split; [|split]]]]].
      - intros fuel. change (1 + fuel)%nat with (S fuel). cbn [refine_loop]. rewrite El, STEP. reflexivity.
      - constructor; cbn [r_arr r_list r_cur r_rest r_first].
        + rewrite length_lset by auto. apply (i_len _ _ _ I).
        + rewrite app_length, LM. lia.
        + auto.
        + intros L. specialize (GAP L). lia.
        + intros j Hj. rewrite nth_lset by auto. destruct (Nat.eqb_spec j (r_cur _ _ st)) as [->|N].
          * exfalso. destruct (Nat.lt_ge_cases (r_rest _ _ st + n) incount) as [L|L]; [specialize (GAP L); lia|lia].
          * apply (i_unread _ _ _ I). lia.
        + replace (r_cur _ _ st + 1)%nat with (S (r_cur _ _ st)) by lia.
          rewrite firstn_lset by auto. rewrite (i_out _ _ _ I), map_app. reflexivity.
        + rewrite app_length, (i_cout _ _ _ I). cbn. reflexivity.
        + apply (i_k _ _ _ I).
        + reflexivity.
      - unfold unread. cbn [r_rest]. unfold more. rewrite <- map_app. f_equal.
        rewrite <- (firstn_skipn n (skipn (r_rest _ _ st) orig)) at 2. f_equal.
        apply skipn_plus.
      - intros i. cbn [r_pl]. unfold bump, nlev. cbn [filter]. rewrite Z.eqb_sym.
        destruct (ql (fst lf') =? i); cbn [length]; lia.
      - cbn [r_max]. unfold maxlev. cbn [fold_right]. lia.
    Qed.

    (** the refinement branch *)
    Lemma split_sim st k out lf pad tl s1 lf' (first : bool) :
      (if first then True else inv st k out) ->
      (length (r_arr _ _ st) = (incount + (CH - 1) * k)%nat /\
       (r_cur _ _ st + length (r_list _ _ st) = r_rest _ _ st + (CH - 1) * k)%nat /\
       (r_rest _ _ st <= incount)%nat /\
       ((r_rest _ _ st < incount)%nat -> (r_cur _ _ st <= r_rest _ _ st)%nat) /\
       (forall j, (r_rest _ _ st <= j < incount)%nat -> nth_error (r_arr _ _ st) j = nth_error (map Some orig) j) /\
       firstn (r_cur _ _ st) (r_arr _ _ st) = map Some out /\ length out = r_cur _ _ st /\ r_first _ _ st = first) ->
      r_list _ _ st = (lf, pad) :: tl ->
      (if first then (r_s _ _ st, lf, true) else if recursive || negb pad then
          let '(s, v, yes) := refine_fn (r_s _ _ st) nt (fst lf) (snd lf) in
          (s, (fst lf, v), yes && (ql (fst lf) <? allowed))
        else (r_s _ _ st, lf, false)) = (s1, lf', true) ->
      exists st', stepf incount st lf pad tl = Some st' /\
        (forall fuel, loop (S fuel) incount st = loop fuel incount st') /\
        inv st' (S k) out /\ r_s _ _ st' = fst (split s1 lf') /\
        r_list _ _ st' = map (fun c => (c, true)) (snd (split s1 lf')) ++ tl /\
        r_rest _ _ st' = r_rest _ _ st /\ r_pl _ _ st' = r_pl _ _ st /\ r_max _ _ st' = r_max _ _ st.
    Proof.
      intros _ (I1 & I2 & I3 & I4 & I5 & I6 & I7 & I8) El Ed. pose proof CHpos as C4.
      rewrite El in I2. cbn [length] in I2.
      destruct (split s1 lf') as (s2, ch) eqn:Es. pose proof (split_length s1 lf') as SL. rewrite Es in SL. cbn [snd fst] in *.
      exists (mkrst _ _ s2 (r_arr _ _ st ++ repeat None (CH - 1)) (map (fun c => (c, true)) ch ++ tl)
                    (r_cur _ _ st) (r_rest _ _ st) false (r_pl _ _ st) (r_max _ _ st)).
      match goal with |- ?A /\ _ => assert (STEP : A) end.
      { unfold refine_step. rewrite I8, Ed, Es. reflexivity. }
      split; [exact STEP|]. split; [|split; [|repeat split]].
      - intros fuel. cbn [refine_loop]. rewrite El, STEP. reflexivity.
      - assert (LC : (r_cur _ _ st <= length (r_arr _ _ st))%nat).
        { rewrite <- I7, <- (map_length Some), <- I6, firstn_length. lia. }
        constructor; cbn [r_arr r_list r_cur r_rest r_first]; auto; try lia.
        + rewrite app_length, repeat_length. nia.
        + rewrite app_length, map_length, SL. nia.
        + intros j Hj. rewrite nth_error_app1 by lia. auto.
        + rewrite firstn_app_le by auto. auto.
    Qed.

    Lemma visit_sim : forall n created lf st k out tl,
      inv st k out -> r_list _ _ st = (lf, created) :: tl -> allowed - ql (fst lf) <= Z.of_nat n -> 0 <= r_max _ _ st ->
      exists st', after st st' k out (snd (VISIT n created (r_s _ _ st) lf)) (fst (VISIT n created (r_s _ _ st) lf)) tl.
    Proof.
      induction n as [|n IH]; intros created lf st k out tl I El Hn Hm.
      - destruct (write_sim st k out lf created tl (fst (VISIT 0 created (r_s _ _ st) lf))
                  (match snd (VISIT 0 created (r_s _ _ st) lf) with [] => lf | x :: _ => x end) I El) as (st' & _ & A).
        + cbn [visit]. destruct created, recursive; cbn [andb negb orb]; try reflexivity;
          destruct (refine_fn (r_s _ _ st) nt (fst lf) (snd lf)) as ((s1, v), yes);
          destruct (Z.ltb_spec (ql (fst lf)) allowed); try lia; rewrite andb_false_r; reflexivity.
        + cbn [visit]. destruct created, recursive; cbn [andb negb orb]; try reflexivity;
          destruct (refine_fn (r_s _ _ st) nt (fst lf) (snd lf)) as ((s1, v), yes);
          destruct (Z.ltb_spec (ql (fst lf)) allowed); try lia; rewrite andb_false_r; reflexivity.
        + auto.
        + exists st'. replace (snd (VISIT 0 created (r_s _ _ st) lf)) with
             [match snd (VISIT 0 created (r_s _ _ st) lf) with [] => lf | x :: _ => x end]; [exact A|].
          cbn [visit]. destruct created, recursive; cbn [andb negb orb]; try reflexivity;
          destruct (refine_fn (r_s _ _ st) nt (fst lf) (snd lf)) as ((s1, v), yes);
          destruct (Z.ltb_spec (ql (fst lf)) allowed); try lia; rewrite andb_false_r; reflexivity.
      - cbn [visit].
        destruct (created && negb recursive) eqn:Ec.
        { destruct (write_sim st k out lf created tl (r_s _ _ st) lf I El) as (st' & _ & A); auto.
          - destruct created, recursive; try discriminate. reflexivity.
          - exists st'. exact A. }
        assert (Eq : recursive || negb created = true) by (destruct created, recursive; try discriminate; reflexivity).
        destruct (refine_fn (r_s _ _ st) nt (fst lf) (snd lf)) as ((s1, v), yes) eqn:Er.
        destruct (yes && (ql (fst lf) <? allowed)) eqn:Ey.
        2:{ destruct (write_sim st k out lf created tl s1 (fst lf, v) I El) as (st' & _ & A); auto.
            - rewrite Eq, Er, Ey. reflexivity.
            - exists st'. exact A. }
        destruct (split_sim st k out lf created tl s1 (fst lf, v) false I) as (st1 & _ & L1 & I1 & S1 & R1 & Re1 & P1 & M1).
        { destruct I. repeat (split; [assumption|]). assumption. }
        { auto. }
        { rewrite Eq, Er, Ey. reflexivity. }
        (* the children one after the other *)
        rewrite <- split_kids.
        pose proof (split_level s1 (fst lf, v)) as LV.
        destruct (split s1 (fst lf, v)) as (s2, ch) eqn:Es. cbn [fst snd] in *.
        assert (W : forall cs tl st k out, inv st k out -> r_list _ _ st = map (fun c => (c, true)) cs ++ tl ->
          (forall c, In c cs -> ql (fst c) = ql (fst lf) + 1) -> 0 <= r_max _ _ st ->
          exists st', after st st' k out (snd (walk (VISIT n true) (r_s _ _ st) cs)) (fst (walk (VISIT n true) (r_s _ _ st) cs)) tl).
        { clear - IH Hn. induction cs as [|c cs IHc]; intros tl st k out I El Lv Hm.
          - exists st. exists 0%nat, k, []. cbn [walk fst snd]. rewrite app_nil_r.
            split; [reflexivity|]. split; [exact I|]. split; [reflexivity|].
            split; [rewrite app_nil_r; exact El|]. split; [reflexivity|]. split; [intros i; unfold nlev; cbn; lia|].
            unfold maxlev. cbn. lia.
          - cbn [map app] in El.
            destruct (IH true c st k out _ I El) as (st1 & m1 & k1 & more1 & A1 & B1 & C1 & D1 & E1 & F1 & G1); [|auto|].
            { rewrite (Lv c ltac:(left; auto)). lia. }
            cbn [walk]. destruct (VISIT n true (r_s _ _ st) c) as (s1, o1) eqn:V1. cbn [fst snd] in *.
            pose proof (maxlev_nonneg o1).
            rewrite <- app_assoc in D1.
            destruct (IHc (tl ++ more1) st1 k1 (out ++ o1) B1 D1) as (st2 & m2 & k2 & more2 & A2 & B2 & C2 & D2 & E2 & F2 & G2);
              [intros; apply Lv; right; auto|lia|].
            rewrite C1 in *. destruct (walk (VISIT n true) s1 cs) as (s2, o2). cbn [fst snd] in *.
            exists st2. exists (m1 + m2)%nat, k2, (more1 ++ more2).
            split; [intros fuel; rewrite <- Nat.add_assoc, A1; apply A2|].
            split; [rewrite app_assoc; exact B2|]. split; [exact C2|].
            split; [rewrite D2, app_assoc; reflexivity|].
            split; [rewrite <- app_assoc, E2; exact E1|].
            split; [intros i; rewrite F2, F1, nlev_app; lia|]. rewrite G2, G1, maxlev_app. lia. }
        destruct (W ch tl st1 (S k) out I1 R1 LV ltac:(lia)) as (st2 & m2 & k2 & more2 & A2 & B2 & C2 & D2 & E2 & F2 & G2).
        rewrite S1 in *.
        exists st2. exists (S m2), k2, more2.
        split; [intros fuel; cbn [Nat.add]; rewrite L1; apply A2|].
        split; [exact B2|]. split; [exact C2|]. split; [exact D2|].
        split; [rewrite E2; unfold unread; rewrite Re1; reflexivity|].
        split; [intros i; rewrite F2, P1; reflexivity|]. rewrite G2, M1. reflexivity.
    Qed.

    (** every step is defined and keeps the invariant *)
    Lemma step_inv st k out lf pad tl : inv st k out -> r_list _ _ st = (lf, pad) :: tl -> 0 <= r_max _ _ st ->
      exists st' k' out', stepf incount st lf pad tl = Some st' /\ inv st' k' out' /\ 0 <= r_max _ _ st'.
    Proof.
      intros I El Hm.
      destruct (if recursive || negb pad then
          let '(s, v, yes) := refine_fn (r_s _ _ st) nt (fst lf) (snd lf) in
          (s, (fst lf, v), yes && (ql (fst lf) <? allowed))
        else (r_s _ _ st, lf, false)) as ((s1, lf'), go) eqn:Ed.
      destruct go.
      - destruct (split_sim st k out lf pad tl s1 lf' false I) as (st' & S & _ & I' & _ & _ & _ & _ & M).
        { destruct I. repeat (split; [assumption|]). assumption. }
        { exact El. } { exact Ed. }
        exists st', (Datatypes.S k), out. split; [exact S|]. split; [exact I'|lia].
      - destruct (write_sim st k out lf pad tl s1 lf' I El Ed) as (st' & S & m & k' & more & _ & I' & _ & _ & _ & _ & M).
        { destruct (recursive || negb pad); [destruct (refine_fn (r_s _ _ st) nt (fst lf) (snd lf)) as ((?, ?), ?)|];
          inversion Ed; reflexivity. }
        { exact Hm. }
        exists st', k', (out ++ [lf']). split; [exact S|]. split; [exact I'|lia].
    Qed.

    (** the leaves that are still to be visited *)
    Notation W n := (walk (fun s (x : leaf D * bool) => VISIT n (snd x) s (fst x))).

    Lemma loop_sim n : forall todo st k out, inv st k out -> r_list _ _ st ++ unread st = todo ->
      (forall x, In x todo -> allowed - ql (fst (fst x)) <= Z.of_nat n) -> 0 <= r_max _ _ st ->
      exists m st', (forall fuel, loop (m + fuel) incount st = Some st') /\
        r_s _ _ st' = fst (W n (r_s _ _ st) todo) /\
        r_arr _ _ st' = map Some (out ++ snd (W n (r_s _ _ st) todo)) /\
        (forall i, r_pl _ _ st' i = r_pl _ _ st i + nlev i (snd (W n (r_s _ _ st) todo))) /\
        r_max _ _ st' = Z.max (r_max _ _ st) (maxlev (snd (W n (r_s _ _ st) todo))).
    Proof.
      induction todo as [|x todo IH]; intros st k out I El Hn Hm; pose proof CHpos as C4.
      - apply app_eq_nil in El. destruct El as (El & Eu).
        assert (Er : r_rest _ _ st = incount).
        { destruct (Nat.lt_ge_cases (r_rest _ _ st) incount) as [L|L]; [|pose proof (i_rest _ _ _ I); lia].
          pose proof (i_cur _ _ _ I L). pose proof (i_pos _ _ _ I) as P. rewrite El in P. cbn in P.
          pose proof (i_k _ _ _ I). nia. }
        exists 0%nat, st. cbn [walk fst snd]. split; [|split; [reflexivity|split; [|split]]].
        + intros fuel. destruct fuel; cbn [Nat.add refine_loop]; rewrite El; reflexivity.
        + rewrite app_nil_r, <- (i_out _ _ _ I).
          pose proof (i_pos _ _ _ I) as P. rewrite El in P. cbn [length] in P.
          pose proof (i_len _ _ _ I). rewrite firstn_all2; [reflexivity|]. lia.
        + intros i. unfold nlev. cbn. lia.
        + unfold maxlev. cbn. lia.
      - destruct (r_list _ _ st) as [|(lf, pad) tl] eqn:Eq.
        { exfalso. destruct (Nat.lt_ge_cases (r_rest _ _ st) incount) as [L|L].
          - pose proof (i_cur _ _ _ I L). pose proof (i_pos _ _ _ I) as P. rewrite Eq in P. cbn in P.
            pose proof (i_k _ _ _ I). nia.
          - cbn [app] in El. unfold unread in El. rewrite skipn_all2 in El by lia. discriminate. }
        cbn [app] in El. injection El as <- El.
        destruct (visit_sim n pad lf st k out tl I Eq) as (st1 & m1 & k1 & more & A1 & B1 & C1 & D1 & E1 & F1 & G1).
        { apply (Hn (lf, pad)). left. reflexivity. }
        { exact Hm. }
        cbn [walk fst snd]. destruct (VISIT n pad (r_s _ _ st) lf) as (s1, o1) eqn:V1. cbn [fst snd] in *.
        pose proof (maxlev_nonneg o1).
        destruct (IH st1 k1 (out ++ o1) B1) as (m2 & st2 & A2 & B2 & C2 & D2 & E2).
        { rewrite D1, <- app_assoc, E1. exact El. }
        { intros y Hy. apply Hn. right. exact Hy. }
        { lia. }
        rewrite C1 in *. destruct (W n s1 todo) as (s2, o2). cbn [fst snd] in *.
        exists (m1 + m2)%nat, st2.
        split; [intros fuel; rewrite <- Nat.add_assoc, A1; apply A2|].
        split; [exact B2|]. split; [rewrite C2, app_assoc; reflexivity|].
        split; [intros i; rewrite D2, F1, nlev_app; lia|]. rewrite E2, G1, maxlev_app. lia.
    Qed.
  End Loop.

  Lemma walk_app {A B} (f : St -> A -> St * list B) : forall a b s,
    walk f s (a ++ b) = let (s1, o1) := walk f s a in let (s2, o2) := walk f s1 b in (s2, o1 ++ o2).
  Proof.
    induction a as [|x a IH]; intros b s.
    - cbn. destruct (walk f s b). reflexivity.
    - cbn [app walk]. destruct (f s x) as (s1, o1). rewrite IH. destruct (walk f s1 a) as (s2, o2).
      destruct (walk f s2 b) as (s3, o3). rewrite app_assoc. reflexivity.
  Qed.
  Lemma walk_ext {A B} (f g : St -> A -> St * list B) : (forall s x, f s x = g s x) -> forall l s, walk f s l = walk g s l.
  Proof.
    intros H. induction l as [|x l IH]; intros s; [reflexivity|]. cbn. rewrite H. destruct (g s x). rewrite IH. reflexivity.
  Qed.
  Lemma walk_map {A B C} (f : St -> B -> St * list C) (g : A -> B) : forall l s,
    walk f s (map g l) = walk (fun s x => f s (g x)) s l.
  Proof.
    induction l as [|x l IH]; intros s; [reflexivity|]. cbn. destruct (f s (g x)). rewrite IH. reflexivity.
  Qed.

  Lemma walk_ext_in {A B} (f g : St -> A -> St * list B) l : (forall x, In x l -> forall s, f s x = g s x) ->
    forall s, walk f s l = walk g s l.
  Proof.
    induction l as [|x l IH]; intros H s; [reflexivity|]. cbn. rewrite (H x (or_introl eq_refl)).
    destruct (g s x). rewrite IH; [reflexivity|]. intros y Hy. apply H. right. exact Hy.
  Qed.

  (** the bound on the number of levels does not matter once large enough *)
  Lemma visit_depth : forall n m created s lf, allowed - ql (fst lf) <= Z.of_nat n -> allowed - ql (fst lf) <= Z.of_nat m ->
    VISIT n created s lf = VISIT m created s lf.
  Proof.
    assert (Z0 : forall m created s lf, allowed - ql (fst lf) <= 0 -> VISIT 0 created s lf = VISIT m created s lf).
    { intros m created s lf H. destruct m; [reflexivity|]. cbn [visit].
      destruct (created && negb recursive); [reflexivity|].
      destruct (refine_fn s nt (fst lf) (snd lf)) as ((s1, v), yes).
      destruct (Z.ltb_spec (ql (fst lf)) allowed); [lia|]. rewrite andb_false_r. reflexivity. }
    induction n as [|n IH]; intros m created s lf Hn Hm; [apply Z0; lia|].
    destruct m as [|m]; [symmetry; apply Z0; lia|].
    cbn [visit]. destruct (created && negb recursive); [reflexivity|].
    destruct (refine_fn s nt (fst lf) (snd lf)) as ((s1, v), yes).
    destruct (yes && (ql (fst lf) <? allowed)); [|reflexivity].
    rewrite <- split_kids. pose proof (split_level s1 (fst lf, v)) as LV.
    destruct (split s1 (fst lf, v)) as (s2, ch). cbn [fst snd] in LV.
    apply walk_ext_in. intros c Ic s0. apply IH; rewrite (LV c Ic); lia.
  Qed.

  Notation SCAN := (refine_scan St D refine_fn allowed nt).

  Lemma scan_sim n : forall todo s dn pl mx, 0 <= mx ->
    (exists s' o pl', (forall i, pl' i = pl i + nlev i o) /\
       SCAN (length todo) s (map Some (dn ++ todo)) (length dn) pl mx =
       Some (s', map Some (dn ++ o), length (dn ++ todo), pl', Z.max mx (maxlev o)) /\
       walk (VISIT n false) s todo = (s', o) /\ map fst o = map fst todo) \/
    (exists a lf b s1 a' s2 v,
       todo = a ++ lf :: b /\ walk (VISIT n false) s a = (s1, a') /\ length a' = length a /\
       refine_fn s1 nt (fst lf) (snd lf) = (s2, v, true) /\ ql (fst lf) < allowed /\
       exists pl', (forall i, pl' i = pl i + nlev i a') /\
       SCAN (length todo) s (map Some (dn ++ todo)) (length dn) pl mx =
       Some (s2, map Some (dn ++ a' ++ (fst lf, v) :: b), (length dn + length a')%nat, pl',
             Z.max mx (maxlev a'))).
  Proof.
    induction todo as [|(q, v0) todo IH]; intros s dn pl mx Hm.
    - left. exists s, [], pl. split; [intros i; unfold nlev; cbn; lia|]. cbn [length refine_scan walk map].
      rewrite app_nil_r. unfold maxlev. cbn [fold_right]. rewrite Z.max_l by lia. auto.
    - assert (LV : visit d St D refine_fn init_fn replace_fn recursive allowed nt n false s (q, v0) =
        let '(s1, v, yes) := refine_fn s nt q v0 in
        if yes && (ql q <? allowed) then
          match n with O => (s1, []) | S n' => let (s2, ch) := kids s1 (q, v) in walk (VISIT n' true) s2 ch end
        else (s1, [(q, v)])) by (destruct n; reflexivity).
      destruct (refine_fn s nt q v0) as ((s1, v), yes) eqn:Er.
      assert (G : aget (map Some (dn ++ (q, v0) :: todo)) (length dn) = Some (q, v0)).
      { rewrite aget_map, nth_error_app2, Nat.sub_diag by lia. reflexivity. }
      assert (ST : aset (map Some (dn ++ (q, v0) :: todo)) (length dn) (Some (q, v)) = Some (map Some (dn ++ (q, v) :: todo))).
      { rewrite aset_ok by (rewrite map_length, app_length; cbn; lia). f_equal. unfold lset.
        rewrite !map_app. rewrite firstn_app, firstn_all2 by (rewrite map_length; lia).
        rewrite map_length, Nat.sub_diag. cbn [firstn]. rewrite app_nil_r. cbn [map]. f_equal.
        replace (S (length dn)) with (length dn + 1)%nat by lia. rewrite skipn_plus.
        rewrite skipn_app, (skipn_all2 (map Some dn)) by (rewrite map_length; lia). rewrite map_length, Nat.sub_diag. reflexivity. }
      destruct (yes && (ql q <? allowed)) eqn:Ey.
      + right. exists [], (q, v0), todo, s, [], s1, v. cbn [fst snd app length].
        apply andb_prop in Ey. destruct Ey as (-> & Ey).
        split; [reflexivity|]. split; [reflexivity|]. split; [reflexivity|]. split; [exact Er|].
        split; [lia|]. exists pl. split; [intros i; unfold nlev; cbn; lia|].
        cbn [refine_scan]. rewrite G, Er, ST. rewrite Ey. cbn [andb]. rewrite Nat.add_0_r.
        unfold maxlev. cbn [fold_right]. rewrite Z.max_l by lia. reflexivity.
      + replace (dn ++ (q, v) :: todo) with ((dn ++ [(q, v)]) ++ todo) in * by (rewrite <- app_assoc; reflexivity).
        cbn [length refine_scan]. rewrite G, Er, ST, Ey.
        specialize (IH s1 (dn ++ [(q, v)]) (bump pl (ql q) 1) (Z.max mx (ql q)) ltac:(lia)).
        replace (length (dn ++ [(q, v)])) with (length dn + 1)%nat in IH by (rewrite app_length; reflexivity).
        assert (B : forall i, bump pl (ql q) 1 i = pl i + nlev i [(q, v)]).
        { intros i. unfold bump, nlev. cbn [filter fst]. rewrite Z.eqb_sym. destruct (ql q =? i); cbn [length]; lia. }
        destruct IH as [(s' & o & pl' & P & S1 & W1 & F1)|(a & lf & b & s2 & a' & s3 & v' & T1 & W1 & L1 & R1 & Q1 & pl' & P & S1)].
        * left. exists s', ((q, v) :: o), pl'.
          split; [intros i; rewrite P, B; change ((q, v) :: o) with ([(q, v)] ++ o); rewrite nlev_app; lia|].
          split.
          { rewrite S1. rewrite <- !app_assoc. cbn [app]. f_equal. f_equal; [f_equal|].
            - rewrite !app_length. reflexivity.
            - unfold maxlev. cbn [fold_right fst]. lia. }
          split; [cbn [walk]; rewrite LV, W1; reflexivity|]. cbn [map fst]. rewrite F1. reflexivity.
        * right. exists ((q, v0) :: a), lf, b, s2, ((q, v) :: a'), s3, v'.
          split; [rewrite T1; reflexivity|]. split; [cbn [walk]; rewrite LV, W1; reflexivity|].
          split; [cbn [length]; lia|]. split; [exact R1|]. split; [exact Q1|]. exists pl'.
          split; [intros i; rewrite P, B; change ((q, v) :: a') with ([(q, v)] ++ a'); rewrite nlev_app; lia|].
          rewrite S1. rewrite <- !app_assoc. cbn [app]. f_equal. f_equal; [f_equal; f_equal|].
          { cbn [length]. lia. }
          unfold maxlev. cbn [fold_right fst]. lia.
  Qed.

  Lemma scan_start (n : nat) l s s1 arr current pl mx lf :
    SCAN (length l) s (map Some l) 0 (fun _ => 0) 0 = Some (s1, arr, current, pl, mx) ->
    (current < length l)%nat -> aget arr current = Some lf ->
    exists orig, arr = map Some orig /\ length orig = length l /\ 0 <= mx /\
      (forall j, (current < j)%nat -> nth_error orig j = nth_error l j).
  Proof.
    intros S1 L G.
    destruct (scan_sim n l s [] (fun _ => 0) 0 ltac:(lia))
      as [(s' & o & pl' & P & S2 & W1 & F1)|(a & lf0 & b & s2 & a' & s3 & v' & T1 & W1 & L1 & R1 & Q1 & pl' & P & S2)];
    cbn [app length] in S2; rewrite S1 in S2; inversion S2; subst; [lia|].
    exists (a' ++ (fst lf0, v') :: b). split; [reflexivity|].
    split; [rewrite !app_length; cbn [length]; lia|]. split; [lia|].
    intros j Hj. rewrite !nth_error_app2 by lia. rewrite L1. cbn [Nat.add] in Hj.
    destruct (j - length a)%nat eqn:E; [lia|]. reflexivity.
  Qed.

  (** the body of the tree loop computes the recursive refinement *)
  Theorem refine_tree_spec n s tr local_num :
    (forall lf, In lf (t_leaves _ tr) -> allowed - ql (fst lf) <= Z.of_nat n) ->
    exists n0, forall fuel, (n0 <= fuel)%nat -> exists pl mx,
      refine_tree d St D init_fn refine_fn replace_fn recursive allowed nt fuel s tr local_num =
      (let (s', lv) := walk (VISIT n false) s (t_leaves _ tr) in
       Some (s', mktree _ local_num pl mx lv, local_num + Z.of_nat (length lv))) /\
      (forall i, pl i = nlev i (snd (walk (VISIT n false) s (t_leaves _ tr)))) /\
      (t_max _ tr = maxlev (t_leaves _ tr) -> mx = maxlev (snd (walk (VISIT n false) s (t_leaves _ tr)))).
  Proof.
    intros Hn. unfold refine_tree. rewrite map_length.
    destruct (scan_sim n (t_leaves _ tr) s [] (fun _ => 0) 0 ltac:(lia))
      as [(s' & o & pl' & P & S1 & W1 & F1)|(a & lf & b & s2 & a' & s3 & v' & T1 & W1 & L1 & R1 & Q1 & pl' & P & S1)].
    - exists 0%nat. intros fuel _. exists pl', (t_max _ tr). cbn [app length] in S1. rewrite S1, W1. rewrite Nat.eqb_refl, all_init_map.
      assert (LE : length o = length (t_leaves _ tr)).
      { rewrite <- (map_length fst), F1, map_length. reflexivity. }
      split; [rewrite LE; reflexivity|]. split; [intros i; rewrite P; reflexivity|].
      intros ->. cbn [snd]. clear - F1. revert o F1. induction (t_leaves D tr) as [|x l IH]; intros [|y o] F; try discriminate; [reflexivity|].
      cbn [map] in F. injection F as E F. unfold maxlev. cbn [fold_right]. rewrite E. f_equal. apply IH. exact F.
    - cbn [app length Nat.add] in S1. rewrite S1.
      set (orig := a' ++ (fst lf, v') :: b) in *.
      assert (LO : length orig = length (t_leaves _ tr)).
      { unfold orig. rewrite T1, !app_length. cbn [length]. lia. }
      assert (NE : Nat.eqb (length a') (length (t_leaves _ tr)) = false).
      { apply Nat.eqb_neq. rewrite <- LO. unfold orig. rewrite app_length. cbn [length]. lia. }
      rewrite NE. rewrite aget_map. unfold orig at 1. rewrite nth_error_app2, Nat.sub_diag by lia. cbn [nth_error].
      set (st0 := mkrst St D s3 (map Some orig) [((fst lf, v'), false)] (length a') (length a' + 1) true pl' (Z.max 0 (maxlev a'))).
      destruct (split_sim orig st0 0 a' (fst lf, v') false [] s3 (fst lf, v') true I) as (st1 & _ & L & I1 & E1 & R & Re & Pe & M).
      { unfold st0; cbn [r_arr r_list r_cur r_rest r_first length].
        split; [rewrite map_length; lia|]. split; [lia|].
        split; [unfold orig; rewrite app_length; cbn [length]; lia|]. split; [lia|].
        split; [reflexivity|]. split; [|split; reflexivity].
        rewrite firstn_map. f_equal. unfold orig. rewrite firstn_app, firstn_all2 by lia.
        rewrite Nat.sub_diag. cbn. apply app_nil_r. }
      { reflexivity. } { reflexivity. }
      pose proof (maxlev_nonneg a') as MA.
      (* the recursion depth *)
      destruct n as [|n].
      { exfalso. specialize (Hn lf ltac:(rewrite T1; apply in_or_app; right; left; reflexivity)). lia. }
      destruct (loop_sim orig (S n) (r_list _ _ st1 ++ unread orig st1) st1 1 a' I1 eq_refl) as (m & st2 & A2 & B2 & C2 & D2 & E2).
      { intros x Ix. apply in_app_or in Ix. destruct Ix as [Ix|Ix].
        - rewrite R, app_nil_r in Ix. apply in_map_iff in Ix. destruct Ix as (c & <- & Ic). cbn [fst].
          rewrite (split_level _ _ _ Ic). cbn [fst].
          specialize (Hn lf ltac:(rewrite T1; apply in_or_app; right; left; reflexivity)). lia.
        - unfold unread in Ix. apply in_map_iff in Ix. destruct Ix as (c & <- & Ic). cbn [fst].
          rewrite Re in Ic. unfold st0 in Ic. cbn [r_rest] in Ic. unfold orig in Ic.
          rewrite skipn_app, skipn_all2 in Ic by lia. replace (length a' + 1 - length a')%nat with 1%nat in Ic by lia.
          apply Hn. rewrite T1. apply in_or_app. right. right. exact Ic. }
      { rewrite M. unfold st0. cbn [r_max]. lia. }
      assert (WW : walk (VISIT (S n) false) s (t_leaves _ tr) =
        let (sf, of) := walk (fun s (x : leaf D * bool) => VISIT (S n) (snd x) s (fst x)) (r_s _ _ st1) (r_list _ _ st1 ++ unread orig st1) in
        (sf, a' ++ of)).
      { rewrite T1, walk_app, W1. cbn [walk].
        assert (VL : VISIT (S n) false s2 lf = let (s2, ch) := kids s3 (fst lf, v') in walk (VISIT n true) s2 ch).
        { cbn [visit]. rewrite andb_false_l, R1. destruct (Z.ltb_spec (ql (fst lf)) allowed); [|lia]. reflexivity. }
        rewrite VL.
        rewrite <- split_kids. rewrite R, E1, app_nil_r.
        pose proof (split_level s3 (fst lf, v')) as LV.
        destruct (split s3 (fst lf, v')) as (s4, ch) eqn:Es. cbn [fst snd] in *.
        rewrite walk_app, walk_map.
        rewrite (walk_ext_in (fun s x => VISIT (S n) (snd (x, true)) s (fst (x, true))) (VISIT n true)).
        2:{ intros c Ic s0. cbn [fst snd]. apply visit_depth; rewrite (LV c Ic);
            specialize (Hn lf ltac:(rewrite T1; apply in_or_app; right; left; reflexivity)); lia. }
        destruct (walk (VISIT n true) s4 ch) as (s5, o5).
        unfold unread. rewrite Re. unfold st0. cbn [r_rest]. unfold orig.
        rewrite skipn_app, skipn_all2 by lia. replace (length a' + 1 - length a')%nat with 1%nat by lia.
        cbn [app skipn]. rewrite walk_map. cbn [fst snd].
        destruct (walk (VISIT (S n) false) s5 b) as (s6, o6). reflexivity. }
      rewrite WW. destruct (walk (fun s (x : leaf D * bool) => VISIT (S n) (snd x) s (fst x)) (r_s _ _ st1)
                       (r_list _ _ st1 ++ unread orig st1)) as (sf, of). cbn [fst snd] in *.
      exists (S m). intros fuel Hf. exists (r_pl _ _ st2), (r_max _ _ st2).
      replace fuel with (S (m + (fuel - S m))) by lia. rewrite <- LO, L, A2, C2, all_init_map.
      split; [rewrite B2, map_length; reflexivity|].
      split.
      + intros i. rewrite D2, Pe. unfold st0. cbn [r_pl]. rewrite P, nlev_app. lia.
      + intros _. rewrite E2, M. unfold st0. cbn [r_max]. rewrite maxlev_app. lia.
  Qed.
End R.
