(** * The arrays written by p4est_connectivity_new_brick *)

From Coq Require Import ZArith List Bool Lia ZifyBool FinFun.
From Verif Require Import Quad Spec Neighbor Transform Partition Conn ConnLemmas Permute PermuteArray Brick BrickBits BrickNumber.
Import ListNotations.
Open Scope Z_scope.

Lemma mapo_some {A B} (f : A -> option B) (g : A -> B) l : (forall a, In a l -> f a = Some (g a)) -> mapo f l = Some (map g l).
Proof.
  induction l as [|a l IH]; intros H; cbn [mapo map]; [reflexivity|]. rewrite (H a) by (left; auto). rewrite IH; [reflexivity|].
  intros b I. apply H. right. auto.
Qed.

Definition arr_eqb (a b : arr) : bool :=
  match a, b with TTT, TTT | TTF, TTF | TTE, TTE | ETT, ETT | ETE, ETE | TTC, TTC | CTT, CTT | CTC, CTC => true | _, _ => false end.
Lemma arr_eqb_eq a b : arr_eqb a b = true <-> a = b.
Proof. destruct a, b; cbn; split; congruence. Qed.
Lemma store_get a ws : forall l, (forall k v, In (a, k, v) ws -> 0 <= k < zlen l) ->
  exists l', store ws a l = Some l' /\ zlen l' = zlen l /\
    forall k v, 0 <= k -> (forall v', In (a, k, v') ws -> v' = v) -> (In (a, k, v) ws \/ zget l k = Some v) -> zget l' k = Some v.
Proof.
  induction ws as [|((b & j) & w) ws IH]; intros l R; cbn [store].
  - exists l. split; [auto|]. split; [auto|]. intros k v _ _ [[]|E]; auto.
  - change (match a with TTT => _ | _ => _ end) with (arr_eqb a b). destruct (arr_eqb a b) eqn:E.
    + apply arr_eqb_eq in E. subst b. pose proof (R j w (or_introl eq_refl)) as Rj. unfold in_range. replace ((0 <=? j) && (j <? zlen l)) with true by lia.
      destruct (IH (put l j w)) as (l' & S & L & G).
      { intros k v I. rewrite zlen_put by auto. apply R with v. right. auto. }
      exists l'. split; [auto|]. split; [rewrite L; apply zlen_put; auto|]. intros k v Hk U H. apply G; [auto|intros v' I; apply U; right; auto|].
      rewrite get_put by auto. destruct (k =? j) eqn:K.
      * assert (k = j) by lia. subst k. right. f_equal. apply U. left. auto.
      * destruct H as [[H|H]|H]; auto. exfalso. assert (j = k) by congruence. lia.
    + destruct (IH l) as (l' & S & L & G); [intros k v I; apply (R k v); right; auto|]. exists l'. split; [auto|]. split; [auto|].
      intros k v Hk U H. apply G; [auto|intros v' I; apply U; right; auto|]. destruct H as [[H|H]|H]; auto. exfalso.
      assert (b = a) by congruence. subst b. assert (arr_eqb a a = true) by (apply arr_eqb_eq; auto). congruence.
Qed.

Lemma in_face_loop d i j : In (i, j) (face_loop d) <-> 0 <= i < nd d /\ 0 <= j < 2.
Proof.
  unfold face_loop. rewrite in_flat_map. split.
  - intros (k & I & J). apply in_upto in I. apply in_map_iff in J as (l & E & J). apply in_upto in J. assert (k = i) by congruence. assert (l = j) by congruence. lia.
  - intros (I & J). exists i. split; [apply in_upto; auto|]. apply in_map_iff. exists j. split; [auto|]. apply in_upto. auto.
Qed.
Lemma in_edge_loop d i j : In (i, j) (edge_loop3 d) <-> d = D3 /\ 0 <= i < 3 /\ 0 <= j < 4.
Proof.
  unfold edge_loop3. destruct d; cbn [is3]; [split; [intros []|intros (E & _); discriminate]|]. rewrite in_flat_map. split.
  - intros (k & I & J). apply in_upto in I. apply in_map_iff in J as (l & E & J). apply in_upto in J. assert (k = i) by congruence. assert (l = j) by congruence. split; [auto|lia].
  - intros (_ & I & J). exists i. split; [apply in_upto; auto|]. apply in_map_iff. exists j. split; [auto|]. apply in_upto. auto.
Qed.

Lemma split_eq F a b r r' : 0 <= r < F -> 0 <= r' < F -> a * F + r = b * F + r' -> a = b /\ r = r'.
Proof. intros R R' E. assert (a = b) by nia. subst. lia. Qed.

Lemma mod_shift a s : 0 < s -> (a + s) mod s = a mod s.
Proof. intros H. rewrite <- (Z.mul_1_l s) at 1. apply Z.mod_add. lia. Qed.
Lemma bit01 i k : bit i k = 0 \/ bit i k = 1.
Proof. unfold bit. pose proof (Z.mod_pos_bound (i / 2 ^ k) 2 ltac:(lia)). lia. Qed.

Section Write.
  Variables (d : dim) (m n p : Z) (pa pb pc : bool).
  Hypothesis Hm : 0 < m.
  Hypothesis Hn : 0 < n.
  Hypothesis Hp : 0 < p.
  Hypothesis H2 : d = D2 -> p = 1 /\ pc = true.

  Local Notation size := (size m n p).
  Local Notation per := (per pa pb pc).
  Local Notation lg := (lg m n p).
  Local Notation rk := (rk d m n p).
  Local Notation inb := (in_box m n p).
  Local Notation cflag := (cflag m n p pa pb pc).
  Local Notation eflag := (eflag m n p pa pb pc).
  Local Notation csize := (csize m n p pa pb pc).
  Local Notation inner := (inner m n p pa pb pc).
  Local Notation outer := (outer m n p pa pb pc).
  Local Notation lin := (x2l d lg rk).
  Local Notation xs := (filter inb (map (l2x d lg rk) (upto (n_iter m n p)))).
  Local Notation N := (number d m n p pa pb pc).
  Local Notation cell := (cell m n p).
  Local Notation wrap := (wrap m n p).
  Local Notation tau := (tau d m n p pa pb pc).
  Local Notation gam := (gam d m n p pa pb pc).
  Local Notation eps := (eps d m n p pa pb pc).
  Local Notation nt := (num_trees m n p).
  Local Notation nc := (num_corners m n p pa pb pc).
  Local Notation ne3 := (m * csize 1 * csize 2 + csize 0 * n * csize 2 + csize 0 * csize 1 * p).

  Lemma spos k : 0 <= k < 3 -> 0 < size k.
  Proof. apply size_pos; auto. Qed.
  Lemma wrap_cg x o k : 0 <= k < 3 -> cg (wrap x o) k = (cg x k + cg o k + size k) mod size k.
  Proof. intros Hk. unfold Brick.wrap. rewrite cg_tab by auto. reflexivity. Qed.
  Lemma wrap_cell x o : cell (wrap x o).
  Proof. intros k Hk. rewrite wrap_cg by auto. apply Z.mod_pos_bound. apply spos. auto. Qed.
  Lemma wrap_back x o o' : cell x -> (forall k, 0 <= k < 3 -> cg o k + cg o' k = 0) -> wrap (wrap x o) o' = x.
  Proof.
    intros C O. apply xyz_eq. intros k Hk. pose proof (spos k Hk) as Sp. rewrite !wrap_cg by auto. rewrite !mod_shift by auto. rewrite Z.add_mod_idemp_l by lia.
    rewrite <- Z.add_assoc, O, Z.add_0_r by auto. apply Z.mod_small. apply C. auto.
  Qed.
  Lemma wrap_id x o : cell x -> (forall k, 0 <= k < 3 -> cg o k = 0 \/ size k = 1) -> wrap x o = x.
  Proof.
    intros C O. apply xyz_eq. intros k Hk. pose proof (spos k Hk) as Sp. rewrite wrap_cg, mod_shift by auto. specialize (C k Hk).
    destruct (O k Hk) as [E|E]; [rewrite E, Z.add_0_r; apply Z.mod_small; auto|]. rewrite E in *. rewrite Z.mod_1_r. lia.
  Qed.
  Lemma wrap_ext x o o' : (forall k, 0 <= k < 3 -> cg o k = cg o' k \/ size k = 1) -> wrap x o = wrap x o'.
  Proof.
    intros O. apply xyz_eq. intros k Hk. rewrite !wrap_cg by auto. destruct (O k Hk) as [E|E]; rewrite E; [reflexivity|]. rewrite !Z.mod_1_r. reflexivity.
  Qed.
  Lemma size2 : d = D2 -> size 2 = 1.
  Proof. intros E. destruct (H2 E) as (-> & _). reflexivity. Qed.

  (** the lower and upper ends *)
  Lemma inner_lower x y k b : cell x -> 0 <= k < 3 -> b = 0 \/ b = 1 -> outer x k b = false ->
    cg y k = (cg x k + (b - 1) + size k) mod size k -> inner y k = true.
  Proof.
    intros C Hk Hb O E. specialize (C k Hk). unfold Brick.outer in O. unfold Brick.inner. destruct (per k); [apply orb_true_r|]. cbn [negb andb] in O.
    rewrite mod_shift in E by (apply spos; auto). destruct Hb as [-> | ->].
    - rewrite Z.mod_small in E by lia. lia.
    - rewrite Z.mod_small in E by lia. lia.
  Qed.
  Lemma outer_upper x y k b : cell y -> 0 <= k < 3 -> b = 0 \/ b = 1 -> inner y k = true ->
    cg x k = (cg y k + (1 - b) + size k) mod size k -> outer x k b = false.
  Proof.
    intros C Hk Hb I E. specialize (C k Hk). unfold Brick.inner in I. unfold Brick.outer. destruct (per k); [reflexivity|]. rewrite orb_false_r in I. cbn [negb andb].
    rewrite mod_shift in E by (apply spos; auto). destruct Hb as [-> | ->]; rewrite Z.mod_small in E by lia; lia.
  Qed.

  (** the cells that share an edge and a corner with the upper end of a lower cell *)
  Definition dir1 (i : Z) : Z := if i =? 0 then 1 else 0.
  Definition dir2 (i : Z) : Z := if i =? 2 then 1 else 2.
  Definition elo (i j : Z) : xyz := tabulate (fun k => if k =? dir1 i then j mod 2 - 1 else if k =? dir2 i then j / 2 - 1 else 0).
  Definition ehi (i j : Z) : xyz := tabulate (fun k => if k =? dir1 i then 1 - j mod 2 else if k =? dir2 i then 1 - j / 2 else 0).
  Definition clo (i : Z) : xyz := tabulate (fun k => bit i k - 1).
  Definition chi (i : Z) : xyz := tabulate (fun k => 1 - bit i k).
  Lemma elo_hi i j k : 0 <= k < 3 -> cg (elo i j) k + cg (ehi i j) k = 0.
  Proof. intros Hk. unfold elo, ehi. rewrite !cg_tab by auto. destruct (k =? dir1 i), (k =? dir2 i); lia. Qed.
  Lemma clo_hi i k : 0 <= k < 3 -> cg (clo i) k + cg (chi i) k = 0.
  Proof. intros Hk. unfold clo, chi. rewrite !cg_tab by auto. lia. Qed.
  Lemma foff_back i j k : 0 <= k < 3 -> cg (foff i j) k + cg (foff i (1 - j)) k = 0.
  Proof. intros Hk. unfold foff. rewrite !cg_tab by auto. destruct (i =? k); lia. Qed.

  Definition eouter (x : xyz) (i j : Z) : bool := outer x (dir1 i) (j mod 2) || outer x (dir2 i) (j / 2).
  Definition couter (x : xyz) (i : Z) : bool := outer x 0 (bit i 0) || outer x 1 (bit i 1) || outer x 2 (bit i 2).
  Lemma half01 j : 0 <= j < 4 -> (j mod 2 = 0 \/ j mod 2 = 1) /\ (j / 2 = 0 \/ j / 2 = 1).
  Proof. intros H. assert (C : j = 0 \/ j = 1 \/ j = 2 \/ j = 3) by lia. destruct C as [->|[->|[->| ->]]]; cbn; auto. Qed.
  Lemma dirs i : 0 <= i < 3 -> 0 <= dir1 i < 3 /\ 0 <= dir2 i < 3 /\ dir1 i <> dir2 i /\ forall x, eflag x i = inner x (dir1 i) && inner x (dir2 i).
  Proof. intros H. kcases i H; cbn; repeat split; try lia. Qed.

  Lemma elo_flag x i j : cell x -> 0 <= i < 3 -> 0 <= j < 4 -> eouter x i j = false -> eflag (wrap x (elo i j)) i = true.
  Proof.
    intros C Hi Hj O. destruct (dirs i Hi) as (D1' & D2' & NE & F). rewrite F. apply orb_false_iff in O as (O1 & O2). destruct (half01 j Hj) as (J1 & J2).
    apply andb_true_iff. split; [eapply (inner_lower x _ _ _ C D1' J1 O1)|eapply (inner_lower x _ _ _ C D2' J2 O2)];
    rewrite wrap_cg by auto; unfold elo; rewrite cg_tab by auto; rewrite ?Z.eqb_refl; [reflexivity|]. replace (dir2 i =? dir1 i) with false by lia. reflexivity.
  Qed.
  Lemma ehi_flag y i j : cell y -> 0 <= i < 3 -> 0 <= j < 4 -> eflag y i = true -> eouter (wrap y (ehi i j)) i j = false.
  Proof.
    intros C Hi Hj O. destruct (dirs i Hi) as (D1' & D2' & NE & F). rewrite F in O. apply andb_true_iff in O as (O1 & O2). destruct (half01 j Hj) as (J1 & J2).
    apply orb_false_iff. split; [eapply (outer_upper _ y _ _ C D1' J1 O1)|eapply (outer_upper _ y _ _ C D2' J2 O2)];
    rewrite wrap_cg by auto; unfold ehi; rewrite cg_tab by auto; rewrite ?Z.eqb_refl; [reflexivity|]. replace (dir2 i =? dir1 i) with false by lia. reflexivity.
  Qed.
  Lemma clo_flag x i : cell x -> couter x i = false -> cflag (wrap x (clo i)) = true.
  Proof.
    intros C O. apply orb_false_iff in O as (O & O2). apply orb_false_iff in O as (O0 & O1). unfold Brick.cflag. rewrite !andb_true_iff.
    repeat split; [apply (inner_lower x _ 0 _ C ltac:(lia) (bit01 i 0) O0)|apply (inner_lower x _ 1 _ C ltac:(lia) (bit01 i 1) O1)|apply (inner_lower x _ 2 _ C ltac:(lia) (bit01 i 2) O2)];
    rewrite wrap_cg by lia; unfold clo; rewrite cg_tab by lia; reflexivity.
  Qed.
  Lemma chi_flag y i : cell y -> cflag y = true -> couter (wrap y (chi i)) i = false.
  Proof.
    intros C O. unfold Brick.cflag in O. rewrite !andb_true_iff in O. destruct O as ((O0 & O1) & O2). unfold couter. rewrite !orb_false_iff.
    repeat split; [apply (outer_upper _ y 0 _ C ltac:(lia) (bit01 i 0) O0)|apply (outer_upper _ y 1 _ C ltac:(lia) (bit01 i 1) O1)|apply (outer_upper _ y 2 _ C ltac:(lia) (bit01 i 2) O2)];
    rewrite wrap_cg by lia; unfold chi; rewrite cg_tab by lia; reflexivity.
  Qed.

  (** ** The writes of one tree *)
  Definition FW (x : xyz) (ij : Z * Z) : list write :=
    let '(i, j) := ij in
    if outer x i j then [(TTT, tau x * faces d + (2 * i + j), tau x); (TTF, tau x * faces d + (2 * i + j), 2 * i + j)]
    else [(TTT, tau x * faces d + (2 * i + j), tau (wrap x (foff i j))); (TTF, tau x * faces d + (2 * i + j), i * 2 + (1 - j))].
  Definition EW (x : xyz) (ij : Z * Z) : list write :=
    let '(i, j) := ij in
    if eouter x i j then [(TTE, tau x * 12 + (i * 4 + j), -1)]
    else let t := eps (wrap x (elo i j)) i in
      [(TTE, tau x * 12 + (i * 4 + j), t); (ETT, 4 * t + (3 - j), tau x); (ETE, 4 * t + (3 - j), i * 4 + j)].
  Definition CW (x : xyz) (i : Z) : list write :=
    if couter x i then [(TTC, tau x * children d + i, -1)]
    else let t := gam (wrap x (clo i)) in
      [(TTC, tau x * children d + i, t); (CTT, t * children d + (children d - 1 - i), tau x); (CTC, t * children d + (children d - 1 - i), i)].
  Definition TW (edges corners : bool) (x : xyz) : list write :=
    flat_map (FW x) (face_loop d) ++ (if edges then flat_map (EW x) (edge_loop3 d) else []) ++ (if corners then flat_map (CW x) (upto (children d)) else []).

  Lemma tree_writes_is e c x : cell x -> tree_writes d m n p pa pb pc N e c x = Some (TW e c x).
  Proof.
    intros C. unfold tree_writes. assert (AT : forall y, cell y -> zget (l2t N) (lin y) = Some (tau y)) by (intros y Cy; apply tau_get; auto).
    rewrite AT by auto.
    rewrite (mapo_some _ (fun ij => tau (wrap x (foff (fst ij) (snd ij))))) by (intros ij _; apply AT, wrap_cell).
    rewrite (mapo_some _ (fun ij => tau (wrap x (eoff (fst ij) (snd ij))))) by (intros ij _; apply AT, wrap_cell).
    rewrite (mapo_some _ (fun i => tau (wrap x (coff i)))) by (intros i _; apply AT, wrap_cell).
    set (tf := map (fun ij => tau (wrap x (foff (fst ij) (snd ij)))) (face_loop d)).
    set (te := map (fun ij => tau (wrap x (eoff (fst ij) (snd ij)))) (edge_loop3 d)).
    set (tc := map (fun i => tau (wrap x (coff i))) (upto (children d))).
    assert (FI : forall i j, In (i, j) (face_loop d) -> nth (Z.to_nat (2 * i + j)) tf (-1) = tau (wrap x (foff i j))).
    { intros i j I. clear - I tf. unfold tf, face_loop in *. destruct d; cbn in I;
      repeat (destruct I as [I|I]; [injection I as <- <-; reflexivity|]); destruct I. }
    assert (EI : forall i j, In (i, j) (edge_loop3 d) -> nth (Z.to_nat (i * 4 + j)) te (-1) = tau (wrap x (eoff i j))).
    { intros i j I. clear - I te. unfold te, edge_loop3 in *. destruct d; cbn in I;
      repeat (destruct I as [I|I]; [injection I as <- <-; reflexivity|]); destruct I. }
    assert (ED : (if e then mapo (fun ij => edge_writes m n p pa pb pc N x (tau x) tf te (fst ij) (snd ij)) (edge_loop3 d) else Some []) = Some (if e then map (EW x) (edge_loop3 d) else [])).
    { destruct e; [|reflexivity]. apply mapo_some. intros (i & j) I. cbn [fst snd].
      assert (D : d = D3) by (clear - I; destruct d; [destruct I|auto]).
      assert (R : 0 <= i < 3 /\ 0 <= j < 4).
      { clear - I. destruct d; [destruct I|]. cbn in I. repeat (destruct I as [I|I]; [injection I as <- <-; lia|]). destruct I. }
      destruct R as (Ri & Rj). unfold edge_writes, EW. change (outer x (if i =? 0 then 1 else 0) (j mod 2) || outer x (if i =? 2 then 1 else 2) (j / 2)) with (eouter x i j).
      destruct (eouter x i j) eqn:O; [reflexivity|].
      match goal with |- context [zget (te2 N) (?b * 3 + i)] => assert (B : b = tau (wrap x (elo i j))) end.
      { assert (J : j = 0 \/ j = 1 \/ j = 2 \/ j = 3) by lia. destruct (dirs i Ri) as (R1 & R2 & _). destruct J as [->|[->|[->| ->]]]; cbn [Z.eqb Pos.eqb].
        - rewrite EI by (apply in_edge_loop; split; [auto|lia]). apply f_equal, wrap_ext. intros k Hk. left. clear - Hk Ri. kcases i Ri; kcases k Hk; reflexivity.
        - change (if i =? 2 then 1 else 2) with (dir2 i). replace (dir2 i * 2) with (2 * dir2 i + 0) by lia.
          rewrite FI by (apply in_face_loop; rewrite D; cbn [nd]; lia). apply f_equal, wrap_ext. intros k Hk. left. clear - Hk Ri. kcases i Ri; kcases k Hk; reflexivity.
        - change (if i =? 0 then 1 else 0) with (dir1 i). replace (dir1 i * 2) with (2 * dir1 i + 0) by lia.
          rewrite FI by (apply in_face_loop; rewrite D; cbn [nd]; lia). apply f_equal, wrap_ext. intros k Hk. left. clear - Hk Ri. kcases i Ri; kcases k Hk; reflexivity.
        - rewrite wrap_id; [reflexivity|auto|]. intros k Hk. left. clear - Hk Ri. kcases i Ri; kcases k Hk; reflexivity. }
      rewrite B. destruct (eps_get d m n p pa pb pc Hm Hn Hp H2 (wrap x (elo i j)) i (wrap_cell _ _) Ri) as (E & _). rewrite E. reflexivity. }
    assert (CD : (if c then mapo (corner_writes d m n p pa pb pc N x (tau x) tf te tc) (upto (children d)) else Some []) = Some (if c then map (CW x) (upto (children d)) else [])).
    { destruct c; [|reflexivity]. apply mapo_some. intros i I. apply in_upto in I. unfold corner_writes, CW.
      change (outer x 0 (bit i 0) || outer x 1 (bit i 1) || outer x 2 (bit i 2)) with (couter x i). destruct (couter x i) eqn:O; [reflexivity|].
      assert (B : corner_base d (tau x) tf te tc i = tau (wrap x (clo i))).
      { pose proof size2 as S2. unfold corner_base. 
        assert (T0 : nth (Z.to_nat 0) tc (-1) = tau (wrap x (coff 0))) by (clear; destruct d; reflexivity).
        assert (F0 : nth (Z.to_nat 0) tf (-1) = tau (wrap x (foff 0 0))) by (clear; destruct d; reflexivity).
        assert (F2 : nth (Z.to_nat 2) tf (-1) = tau (wrap x (foff 1 0))) by (clear; destruct d; reflexivity).
        assert (F4 : d = D3 -> nth (Z.to_nat 4) tf (-1) = tau (wrap x (foff 2 0))) by (clear; destruct d; [discriminate|reflexivity]).
        assert (G0 : d = D3 -> nth (Z.to_nat 0) te (-1) = tau (wrap x (eoff 0 0))) by (clear; destruct d; [discriminate|reflexivity]).
        assert (G4 : d = D3 -> nth (Z.to_nat 4) te (-1) = tau (wrap x (eoff 1 0))) by (clear; destruct d; [discriminate|reflexivity]).
        assert (G8 : d = D3 -> nth (Z.to_nat 8) te (-1) = tau (wrap x (eoff 2 0))) by (clear; destruct d; [discriminate|reflexivity]).
        assert (WX : forall o, (forall k, 0 <= k < 3 -> cg o k = cg (clo i) k \/ size k = 1) -> tau (wrap x o) = tau (wrap x (clo i))) by (intros o W; apply f_equal, wrap_ext; auto).
        assert (WI : (forall k, 0 <= k < 3 -> cg (clo i) k = 0 \/ size k = 1) -> tau x = tau (wrap x (clo i))) by (intros W; rewrite wrap_id; auto).
        clearbody tf te tc.
        destruct (is3 d) eqn:D'.
        - assert (D : d = D3) by (clear - D'; destruct d; [discriminate|auto]). specialize (F4 D). specialize (G0 D). specialize (G4 D). specialize (G8 D). rewrite D in I. cbn [children] in I.
          assert (J : i = 0 \/ i = 1 \/ i = 2 \/ i = 3 \/ i = 4 \/ i = 5 \/ i = 6 \/ i = 7) by lia.
          rewrite T0, F0, F2, F4, G0, G4, G8. clear T0 F0 F2 F4 G0 G4 G8.
          destruct J as [->|[->|[->|[->|[->|[->|[->| ->]]]]]]]; (lazymatch goal with |- nth ?q _ _ = _ => let v := eval vm_compute in q in change q with v end); cbn [nth];
          (lazymatch goal with |- tau x = _ => apply WI | _ => apply WX end); intros k Hk; left; clear - Hk; kcases k Hk; reflexivity.
        - assert (D : d = D2) by (clear - D'; destruct d; [auto|discriminate]). specialize (S2 D). rewrite D in I. cbn [children] in I.
          assert (J : i = 0 \/ i = 1 \/ i = 2 \/ i = 3) by lia.
          rewrite T0, F0, F2. clear T0 F0 F2 F4 G0 G4 G8.
          destruct J as [->|[->|[->| ->]]]; (lazymatch goal with |- nth ?q _ _ = _ => let v := eval vm_compute in q in change q with v end); cbn [nth];
          (lazymatch goal with |- tau x = _ => apply WI | _ => apply WX end); intros k Hk; clear - Hk S2; kcases k Hk; auto. }
      rewrite B. destruct (gam_get d m n p pa pb pc Hm Hn Hp H2 (wrap x (clo i)) (wrap_cell _ _)) as (E & _). rewrite E. reflexivity. }
    rewrite ED, CD. f_equal. unfold TW. f_equal.
    - assert (FE : forall ij, In ij (face_loop d) -> face_writes d m n p pa pb pc x (tau x) tf (fst ij) (snd ij) = FW x ij).
      { intros (i & j) I. unfold face_writes, FW. cbn [fst snd]. rewrite FI by auto. reflexivity. }
      clearbody tf. clear - FE. induction (face_loop d) as [|a l IH]; [reflexivity|]. cbn [flat_map]. rewrite FE by (left; auto). rewrite IH; [reflexivity|]. intros ij I. apply FE. right. auto.
    - destruct e, c; rewrite ?flat_map_concat_map; reflexivity.
  Qed.

  (** ** The arrays *)
  Lemma inxs x : In x xs <-> cell x.
  Proof. apply (in_xs d m n p pc); auto. Qed.
  Variables (e c : bool).
  Definition ws : list write := concat (map (TW e c) xs).

  Lemma in_ws w : In w ws <-> exists x, cell x /\
    ((exists i j, 0 <= i < nd d /\ 0 <= j < 2 /\ In w (FW x (i, j))) \/
     (e = true /\ d = D3 /\ exists i j, 0 <= i < 3 /\ 0 <= j < 4 /\ In w (EW x (i, j))) \/
     (c = true /\ exists i, 0 <= i < children d /\ In w (CW x i))).
  Proof.
    unfold ws. rewrite <- flat_map_concat_map, in_flat_map. split.
    - intros (x & I & W). apply inxs in I. exists x. split; [auto|]. unfold TW in W. rewrite !in_app_iff in W. destruct W as [W|[W|W]].
      + left. apply in_flat_map in W as ((i & j) & L & W). apply in_face_loop in L. exists i, j. tauto.
      + right. left. destruct e; [|destruct W]. apply in_flat_map in W as ((i & j) & L & W). apply in_edge_loop in L. split; [auto|]. split; [tauto|]. exists i, j. tauto.
      + right. right. destruct c; [|destruct W]. apply in_flat_map in W as (i & L & W). apply in_upto in L. eauto.
    - intros (x & C & W). exists x. split; [apply inxs; auto|]. unfold TW. rewrite !in_app_iff.
      destruct W as [(i & j & I & J & W)|[(E & D & i & j & I & J & W)|(E & i & I & W)]].
      + left. apply in_flat_map. exists (i, j). split; [apply in_face_loop; auto|auto].
      + right. left. rewrite E. apply in_flat_map. exists (i, j). split; [apply in_edge_loop; auto|auto].
      + right. right. rewrite E. apply in_flat_map. exists i. split; [apply in_upto; auto|auto].
  Qed.

  Lemma array_get a len (P : Z -> Z -> Prop) : 0 <= len -> (forall k v, In (a, k, v) ws <-> P k v) -> (forall k v, P k v -> 0 <= k < len) ->
    (forall k v v', P k v -> P k v' -> v = v') ->
    exists l, array ws a len = Some l /\ zlen l = len /\ forall k v, P k v -> zget l k = Some v.
  Proof.
    intros L I R U. destruct (store_get a ws (repeat (-2) (Z.to_nat len))) as (l & S & Ll & G).
    { intros k v W. apply I in W. apply R in W. unfold zlen. rewrite repeat_length. lia. }
    exists l. split; [exact S|]. split; [rewrite Ll; unfold zlen; rewrite repeat_length; lia|]. intros k v W. apply G; [apply R in W; lia| |left; apply I; auto].
    intros v' W'. apply I in W'. eauto.
  Qed.


  Definition vTTT x i j := if outer x i j then tau x else tau (wrap x (foff i j)).
  Definition vTTF x i j := if outer x i j then 2 * i + j else i * 2 + (1 - j).
  Definition vTTE x i j := if eouter x i j then -1 else eps (wrap x (elo i j)) i.
  Definition vTTC x i := if couter x i then -1 else gam (wrap x (clo i)).

  Lemma faces_nd : faces d = 2 * nd d.
  Proof. clear. destruct d; reflexivity. Qed.
  Lemma tau_nt x : cell x -> 0 <= tau x < nt.
  Proof. intros C. rewrite <- (xs_len d m n p pc) by auto. apply tau_range; auto. Qed.
  Lemma nt_pos : 0 < nt.
  Proof. unfold num_trees. apply Z.mul_pos_pos; [apply Z.mul_pos_pos|]; auto. Qed.
  Lemma tau_uniq x y : cell x -> cell y -> tau x = tau y -> x = y.
  Proof. apply tau_inj; auto. Qed.

  Ltac inw W := repeat match type of W with _ \/ _ => destruct W as [W|W] | False => destruct W end.

  Lemma ttt_get : exists l, array ws TTT (faces d * nt) = Some l /\ zlen l = faces d * nt /\
    forall x i j, cell x -> 0 <= i < nd d -> 0 <= j < 2 -> zget l (tau x * faces d + (2 * i + j)) = Some (vTTT x i j).
  Proof.
    pose proof faces_nd as FN. assert (Np : 0 < nd d) by (clear; destruct d; cbn; lia). pose proof nt_pos.
    destruct (array_get TTT (faces d * nt) (fun k v => exists x i j, cell x /\ 0 <= i < nd d /\ 0 <= j < 2 /\ k = tau x * faces d + (2 * i + j) /\ v = vTTT x i j)) as (l & A & L & G).
    - apply Z.mul_nonneg_nonneg; lia.
    - intros k v. rewrite in_ws. split.
      + intros (x & C & [(i & j & I & J & W)|[(_ & _ & i & j & I & J & W)|(_ & i & I & W)]]).
        * unfold FW in W. exists x, i, j. unfold vTTT. destruct (outer x i j); cbn [In] in W; inw W; try discriminate W; assert (k = tau x * faces d + (2 * i + j)) by congruence; (split; [exact C|]); (split; [exact I|]); try (split; [exact J|]); (split; [auto|]); congruence.
        * unfold EW in W. destruct (eouter x i j); cbn [In] in W; inw W; discriminate W.
        * unfold CW in W. destruct (couter x i); cbn [In] in W; inw W; discriminate W.
      + intros (x & i & j & C & I & J & -> & ->). exists x. split; [auto|]. left. exists i, j. split; [auto|]. split; [auto|]. unfold FW, vTTT. destruct (outer x i j); left; reflexivity.
    - intros k v (x & i & j & C & I & J & -> & _). pose proof (tau_nt x C). nia.
    - intros k v v' (x & i & j & C & I & J & -> & ->) (x' & i' & j' & C' & I' & J' & E & ->). apply split_eq in E; [|lia|lia]. destruct E as (E & E').
      assert (x = x') by (apply tau_uniq; auto). assert (i = i') by lia. assert (j = j') by lia. subst. reflexivity.
    - exists l. split; [auto|]. split; [auto|]. intros x i j C I J. apply G. exists x, i, j. auto.
  Qed.
  Lemma ttf_get : exists l, array ws TTF (faces d * nt) = Some l /\ zlen l = faces d * nt /\
    forall x i j, cell x -> 0 <= i < nd d -> 0 <= j < 2 -> zget l (tau x * faces d + (2 * i + j)) = Some (vTTF x i j).
  Proof.
    pose proof faces_nd as FN. assert (Np : 0 < nd d) by (clear; destruct d; cbn; lia). pose proof nt_pos.
    destruct (array_get TTF (faces d * nt) (fun k v => exists x i j, cell x /\ 0 <= i < nd d /\ 0 <= j < 2 /\ k = tau x * faces d + (2 * i + j) /\ v = vTTF x i j)) as (l & A & L & G).
    - apply Z.mul_nonneg_nonneg; lia.
    - intros k v. rewrite in_ws. split.
      + intros (x & C & [(i & j & I & J & W)|[(_ & _ & i & j & I & J & W)|(_ & i & I & W)]]).
        * unfold FW in W. exists x, i, j. unfold vTTF. destruct (outer x i j); cbn [In] in W; inw W; try discriminate W; assert (k = tau x * faces d + (2 * i + j)) by congruence; (split; [exact C|]); (split; [exact I|]); try (split; [exact J|]); (split; [auto|]); congruence.
        * unfold EW in W. destruct (eouter x i j); cbn [In] in W; inw W; discriminate W.
        * unfold CW in W. destruct (couter x i); cbn [In] in W; inw W; discriminate W.
      + intros (x & i & j & C & I & J & -> & ->). exists x. split; [auto|]. left. exists i, j. split; [auto|]. split; [auto|]. unfold FW, vTTF. destruct (outer x i j); right; left; reflexivity.
    - intros k v (x & i & j & C & I & J & -> & _). pose proof (tau_nt x C). nia.
    - intros k v v' (x & i & j & C & I & J & -> & ->) (x' & i' & j' & C' & I' & J' & E & ->). apply split_eq in E; [|lia|lia]. destruct E as (E & E').
      assert (x = x') by (apply tau_uniq; auto). assert (i = i') by lia. assert (j = j') by lia. subst. reflexivity.
    - exists l. split; [auto|]. split; [auto|]. intros x i j C I J. apply G. exists x, i, j. auto.
  Qed.
  Lemma tte_get : d = D3 -> e = true -> exists l, array ws TTE (12 * nt) = Some l /\ zlen l = 12 * nt /\
    forall x i j, cell x -> 0 <= i < 3 -> 0 <= j < 4 -> zget l (tau x * 12 + (i * 4 + j)) = Some (vTTE x i j).
  Proof.
    intros D ET. pose proof nt_pos.
    destruct (array_get TTE (12 * nt) (fun k v => exists x i j, cell x /\ 0 <= i < 3 /\ 0 <= j < 4 /\ k = tau x * 12 + (i * 4 + j) /\ v = vTTE x i j)) as (l & A & L & G).
    - lia.
    - intros k v. rewrite in_ws. split.
      + intros (x & C & [(i & j & I & J & W)|[(_ & _ & i & j & I & J & W)|(_ & i & I & W)]]).
        * unfold FW in W. destruct (outer x i j); cbn [In] in W; inw W; discriminate W.
        * unfold EW in W. exists x, i, j. unfold vTTE. destruct (eouter x i j); cbn [In] in W; inw W; try discriminate W; assert (k = tau x * 12 + (i * 4 + j)) by congruence; (split; [exact C|]); (split; [exact I|]); try (split; [exact J|]); (split; [auto|]); congruence.
        * unfold CW in W. destruct (couter x i); cbn [In] in W; inw W; discriminate W.
      + intros (x & i & j & C & I & J & -> & ->). exists x. split; [auto|]. right. left. split; [auto|]. split; [auto|]. exists i, j. split; [auto|]. split; [auto|]. unfold EW, vTTE. destruct (eouter x i j); left; reflexivity.
    - intros k v (x & i & j & C & I & J & -> & _). pose proof (tau_nt x C). lia.
    - intros k v v' (x & i & j & C & I & J & -> & ->) (x' & i' & j' & C' & I' & J' & E & ->). apply split_eq in E; [|lia|lia]. destruct E as (E & E').
      assert (x = x') by (apply tau_uniq; auto). assert (i = i') by lia. assert (j = j') by lia. subst. reflexivity.
    - exists l. split; [auto|]. split; [auto|]. intros x i j C I J. apply G. exists x, i, j. auto.
  Qed.
  Lemma ttc_get : c = true -> exists l, array ws TTC (children d * nt) = Some l /\ zlen l = children d * nt /\
    forall x i, cell x -> 0 <= i < children d -> zget l (tau x * children d + i) = Some (vTTC x i).
  Proof.
    intros ET. pose proof nt_pos. assert (Np : 0 < children d) by (clear; destruct d; cbn; lia).
    destruct (array_get TTC (children d * nt) (fun k v => exists x i, cell x /\ 0 <= i < children d /\ k = tau x * children d + i /\ v = vTTC x i)) as (l & A & L & G).
    - apply Z.mul_nonneg_nonneg; lia.
    - intros k v. rewrite in_ws. split.
      + intros (x & C & [(i & j & I & J & W)|[(_ & _ & i & j & I & J & W)|(_ & i & I & W)]]).
        * unfold FW in W. destruct (outer x i j); cbn [In] in W; inw W; discriminate W.
        * unfold EW in W. destruct (eouter x i j); cbn [In] in W; inw W; discriminate W.
        * unfold CW in W. exists x, i. unfold vTTC. destruct (couter x i); cbn [In] in W; inw W; try discriminate W; assert (k = tau x * children d + i) by congruence; (split; [exact C|]); (split; [exact I|]); try (split; [exact J|]); (split; [auto|]); congruence.
      + intros (x & i & C & I & -> & ->). exists x. split; [auto|]. right. right. split; [auto|]. exists i. split; [auto|]. unfold CW, vTTC. destruct (couter x i); left; reflexivity.
    - intros k v (x & i & C & I & -> & _). pose proof (tau_nt x C). nia.
    - intros k v v' (x & i & C & I & -> & ->) (x' & i' & C' & I' & E & ->). apply split_eq in E; [|lia|lia]. destruct E as (E & ->).
      assert (x = x') by (apply tau_uniq; auto). subst. reflexivity.
    - exists l. split; [auto|]. split; [auto|]. intros x i C I. apply G. exists x, i. auto.
  Qed.

  (** the arrays of edges and corners: the entry 3 - j of the edge i at the upper end of y *)
  Lemma ne_is : zlen (filter (fun q : xyz * Z => eflag (fst q) (snd q)) (flat_map edges_of xs)) = ne3.
  Proof. apply es_len; auto. Qed.
  Lemma eps_ne y i : cell y -> 0 <= i < 3 -> eflag y i = true -> 0 <= eps y i < ne3.
  Proof. intros C I F. rewrite <- ne_is. apply eps_range; auto. Qed.
  Lemma gam_nc y : cell y -> cflag y = true -> 0 <= gam y < nc.
  Proof. intros C F. rewrite <- (cs_len d) by auto. apply gam_range; auto. Qed.
  Lemma ne_pos : 0 <= ne3.
  Proof. rewrite <- ne_is. unfold zlen. lia. Qed.
  Lemma nc_pos : 0 <= nc.
  Proof. rewrite <- (cs_len d) by auto. unfold zlen. lia. Qed.

  Lemma ett_in k v : d = D3 -> e = true ->
    (In (ETT, k, v) ws <-> exists y i j, cell y /\ 0 <= i < 3 /\ 0 <= j < 4 /\ eflag y i = true /\ k = 4 * eps y i + (3 - j) /\ v = tau (wrap y (ehi i j))) /\
    (In (ETE, k, v) ws <-> exists y i j, cell y /\ 0 <= i < 3 /\ 0 <= j < 4 /\ eflag y i = true /\ k = 4 * eps y i + (3 - j) /\ v = i * 4 + j).
  Proof.
    intros D ET. rewrite !in_ws. split; split.
    1, 3: intros (x & C & [(i & j & I & J & W)|[(_ & _ & i & j & I & J & W)|(_ & i & I & W)]]);
      [unfold FW in W; destruct (outer x i j); cbn [In] in W; inw W; discriminate W| |unfold CW in W; destruct (couter x i); cbn [In] in W; inw W; discriminate W].
    1, 2: unfold EW in W; destruct (eouter x i j) eqn:O; cbn [In] in W; inw W; try discriminate W;
      exists (wrap x (elo i j)), i, j; (split; [apply wrap_cell|]); (split; [auto|]); (split; [auto|]); (split; [apply elo_flag; auto|]);
      assert (k = 4 * eps (wrap x (elo i j)) i + (3 - j)) by congruence; (split; [auto|]).
    - rewrite wrap_back; [congruence|auto|]. intros q Hq. apply elo_hi. auto.
    - congruence.
    - intros (y & i & j & C & I & J & F & -> & ->). exists (wrap y (ehi i j)). split; [apply wrap_cell|]. right. left. split; [auto|]. split; [auto|]. exists i, j.
      split; [auto|]. split; [auto|]. unfold EW. rewrite ehi_flag by auto. rewrite wrap_back; [right; left; reflexivity|auto|]. intros q Hq. rewrite Z.add_comm. apply elo_hi. auto.
    - intros (y & i & j & C & I & J & F & -> & ->). exists (wrap y (ehi i j)). split; [apply wrap_cell|]. right. left. split; [auto|]. split; [auto|]. exists i, j.
      split; [auto|]. split; [auto|]. unfold EW. rewrite ehi_flag by auto. rewrite wrap_back; [right; right; left; reflexivity|auto|]. intros q Hq. rewrite Z.add_comm. apply elo_hi. auto.
  Qed.
  Lemma ett_get : d = D3 -> e = true -> exists l l', array ws ETT (4 * ne3) = Some l /\ zlen l = 4 * ne3 /\ array ws ETE (4 * ne3) = Some l' /\ zlen l' = 4 * ne3 /\
    forall y i j, cell y -> 0 <= i < 3 -> 0 <= j < 4 -> eflag y i = true ->
      zget l (4 * eps y i + (3 - j)) = Some (tau (wrap y (ehi i j))) /\ zget l' (4 * eps y i + (3 - j)) = Some (i * 4 + j).
  Proof.
    intros D ET. pose proof ne_pos as NP.
    assert (U : forall y i j y' i' j', cell y -> cell y' -> 0 <= i < 3 -> 0 <= j < 4 -> 0 <= i' < 3 -> 0 <= j' < 4 -> eflag y i = true -> eflag y' i' = true ->
      4 * eps y i + (3 - j) = 4 * eps y' i' + (3 - j') -> y = y' /\ i = i' /\ j = j').
    { intros y i j y' i' j' C C' I J I' J' F F' E. assert (E1 : eps y i = eps y' i') by lia. assert (j = j') by lia.
      apply eps_inj in E1; auto. tauto. }
    destruct (array_get ETT (4 * ne3) _ ltac:(lia) (fun k v => proj1 (ett_in k v D ET))) as (l & A & L & G).
    { intros k v (y & i & j & C & I & J & F & -> & _). pose proof (eps_ne y i C I F). lia. }
    { intros k v v' (y & i & j & C & I & J & F & -> & ->) (y' & i' & j' & C' & I' & J' & F' & E & ->).
      destruct (U y i j y' i' j' C C' I J I' J' F F' E) as (-> & -> & ->). reflexivity. }
    destruct (array_get ETE (4 * ne3) _ ltac:(lia) (fun k v => proj2 (ett_in k v D ET))) as (l' & A' & L' & G').
    { intros k v (y & i & j & C & I & J & F & -> & _). pose proof (eps_ne y i C I F). lia. }
    { intros k v v' (y & i & j & C & I & J & F & -> & ->) (y' & i' & j' & C' & I' & J' & F' & E & ->).
      destruct (U y i j y' i' j' C C' I J I' J' F F' E) as (-> & -> & ->). reflexivity. }
    exists l, l'. split; [auto|]. split; [auto|]. split; [auto|]. split; [auto|]. intros y i j C I J F. split; [apply G|apply G']; exists y, i, j; auto 8.
  Qed.

  Lemma ctt_in k v : c = true ->
    (In (CTT, k, v) ws <-> exists y i, cell y /\ 0 <= i < children d /\ cflag y = true /\ k = gam y * children d + (children d - 1 - i) /\ v = tau (wrap y (chi i))) /\
    (In (CTC, k, v) ws <-> exists y i, cell y /\ 0 <= i < children d /\ cflag y = true /\ k = gam y * children d + (children d - 1 - i) /\ v = i).
  Proof.
    intros ET. rewrite !in_ws. split; split.
    1, 3: intros (x & C & [(i & j & I & J & W)|[(_ & _ & i & j & I & J & W)|(_ & i & I & W)]]);
      [unfold FW in W; destruct (outer x i j); cbn [In] in W; inw W; discriminate W|unfold EW in W; destruct (eouter x i j); cbn [In] in W; inw W; discriminate W|].
    1, 2: unfold CW in W; destruct (couter x i) eqn:O; cbn [In] in W; inw W; try discriminate W;
      exists (wrap x (clo i)), i; (split; [apply wrap_cell|]); (split; [auto|]); (split; [apply clo_flag; auto|]);
      assert (k = gam (wrap x (clo i)) * children d + (children d - 1 - i)) by congruence; (split; [auto|]).
    - rewrite wrap_back; [congruence|auto|]. intros q Hq. apply clo_hi. auto.
    - congruence.
    - intros (y & i & C & I & F & -> & ->). exists (wrap y (chi i)). split; [apply wrap_cell|]. right. right. split; [auto|]. exists i.
      split; [auto|]. unfold CW. rewrite chi_flag by auto. rewrite wrap_back; [right; left; reflexivity|auto|]. intros q Hq. rewrite Z.add_comm. apply clo_hi. auto.
    - intros (y & i & C & I & F & -> & ->). exists (wrap y (chi i)). split; [apply wrap_cell|]. right. right. split; [auto|]. exists i.
      split; [auto|]. unfold CW. rewrite chi_flag by auto. rewrite wrap_back; [right; right; left; reflexivity|auto|]. intros q Hq. rewrite Z.add_comm. apply clo_hi. auto.
  Qed.
  Lemma ctt_get : c = true -> exists l l', array ws CTT (children d * nc) = Some l /\ zlen l = children d * nc /\ array ws CTC (children d * nc) = Some l' /\ zlen l' = children d * nc /\
    forall y i, cell y -> 0 <= i < children d -> cflag y = true ->
      zget l (gam y * children d + (children d - 1 - i)) = Some (tau (wrap y (chi i))) /\ zget l' (gam y * children d + (children d - 1 - i)) = Some i.
  Proof.
    intros ET. pose proof nc_pos as NP. assert (Np : 0 < children d) by (clear; destruct d; cbn; lia).
    assert (LN : 0 <= children d * nc) by (apply Z.mul_nonneg_nonneg; lia).
    assert (U : forall y i y' i', cell y -> cell y' -> 0 <= i < children d -> 0 <= i' < children d -> cflag y = true -> cflag y' = true ->
      gam y * children d + (children d - 1 - i) = gam y' * children d + (children d - 1 - i') -> y = y' /\ i = i').
    { intros y i y' i' C C' I I' F F' E. apply split_eq in E; [|lia|lia]. destruct E as (E & E'). split; [|lia]. apply (gam_inj d m n p pa pb pc); auto. }
    destruct (array_get CTT (children d * nc) _ LN (fun k v => proj1 (ctt_in k v ET))) as (l & A & L & G).
    { intros k v (y & i & C & I & F & -> & _). pose proof (gam_nc y C F). nia. }
    { intros k v v' (y & i & C & I & F & -> & ->) (y' & i' & C' & I' & F' & E & ->). destruct (U y i y' i' C C' I I' F F' E) as (-> & ->). reflexivity. }
    destruct (array_get CTC (children d * nc) _ LN (fun k v => proj2 (ctt_in k v ET))) as (l' & A' & L' & G').
    { intros k v (y & i & C & I & F & -> & _). pose proof (gam_nc y C F). nia. }
    { intros k v v' (y & i & C & I & F & -> & ->) (y' & i' & C' & I' & F' & E & ->). destruct (U y i y' i' C C' I I' F F' E) as (-> & ->). reflexivity. }
    exists l, l'. split; [auto|]. split; [auto|]. split; [auto|]. split; [auto|]. intros y i C I F. split; [apply G|apply G']; exists y, i; auto 8.
  Qed.
  (** no writes to the arrays that are not there *)
  Lemma none_get a : (a = TTE \/ a = ETT \/ a = ETE) /\ (e = false \/ d = D2) \/ (a = TTC \/ a = CTT \/ a = CTC) /\ c = false -> array ws a 0 = Some [].
  Proof.
    intros H. assert (NI : forall k v, ~ In (a, k, v) ws).
    { intros k v I. apply in_ws in I as (x & C & [(i & j & I & J & W)|[(ET & D & i & j & I & J & W)|(CT & i & I & W)]]).
      - unfold FW in W. destruct (outer x i j); cbn [In] in W; inw W; clear - W H; intuition congruence.
      - destruct H as [(_ & [H|H])|(H & _)]; try congruence. unfold EW in W. destruct (eouter x i j); cbn [In] in W; inw W; clear - W H; intuition congruence.
      - destruct H as [(H & _)|(_ & H)]; try congruence. unfold CW in W. destruct (couter x i); cbn [In] in W; inw W; clear - W H; intuition congruence. }
    unfold array. cbn [Z.to_nat repeat]. clear - NI. induction ws as [|((b & k) & v) l IH]; cbn [store]; [reflexivity|].
    change (match a with TTT => _ | _ => _ end) with (arr_eqb a b). destruct (arr_eqb a b) eqn:E.
    - apply arr_eqb_eq in E. subst. exfalso. apply (NI k v). left. auto.
    - apply IH. intros k' v' I. apply (NI k' v'). right. auto.
  Qed.
End Write.
