(** * The vertices written by p4est_connectivity_new_brick *)

From Coq Require Import ZArith List Bool Lia ZifyBool.
From Verif Require Import Quad Spec Neighbor Transform Partition Conn ConnLemmas Permute PermuteArray Brick BrickBits BrickNumber BrickWrite.
Import ListNotations.
Open Scope Z_scope.

Lemma oct i : 0 <= i < 8 -> i = 0 \/ i = 1 \/ i = 2 \/ i = 3 \/ i = 4 \/ i = 5 \/ i = 6 \/ i = 7.
Proof. lia. Qed.
Ltac octs i H := destruct (oct i H) as [->|[->|[->|[->|[->|[->|[->| ->]]]]]]].
Lemma bits_back i : 0 <= i < 8 -> i = bit i 0 + 2 * bit i 1 + 4 * bit i 2.
Proof. intros H. octs i H; reflexivity. Qed.
Lemma bits_of a b c k : a = 0 \/ a = 1 -> b = 0 \/ b = 1 -> c = 0 \/ c = 1 -> 0 <= k < 3 -> bit (a + 2 * b + 4 * c) k = cg (a, b, c) k.
Proof. intros [->| ->] [->| ->] [->| ->] Hk; kcases k Hk; reflexivity. Qed.
Lemma bit_set i k k' : 0 <= i < 8 -> 0 <= k < 3 -> 0 <= k' < 3 -> bit i k = 0 -> i + 2 ^ k < 8 /\ bit (i + 2 ^ k) k' = if k' =? k then 1 else bit i k'.
Proof. intros Hi Hk Hk'. octs i Hi; kcases k Hk; kcases k' Hk'; cbn; intros E; try discriminate E; auto with zarith; lia. Qed.

Section Vertex.
  Variables (d : dim) (m n p : Z) (pa pb pc : bool).
  Hypothesis Hm : 0 < m.
  Hypothesis Hn : 0 < n.
  Hypothesis Hp : 0 < p.
  Hypothesis H2 : d = D2 -> p = 1 /\ pc = true.

  Local Notation size := (size m n p).
  Local Notation lg := (lg m n p).
  Local Notation rk := (rk d m n p).
  Local Notation inb := (in_box m n p).
  Local Notation lin := (x2l d lg rk).
  Local Notation xs := (filter inb (map (l2x d lg rk) (upto (n_iter m n p)))).
  Local Notation N := (number d m n p pa pb pc).
  Local Notation cell := (cell m n p).
  Local Notation wrap := (wrap m n p).
  Local Notation tau := (tau d m n p pa pb pc).
  Local Notation nt := (num_trees m n p).
  Local Notation ch := (children d).

  (** the corner i of a cell *)
  Definition pt (x : xyz) (i : Z) : xyz := tabulate (fun k => cg x k + bit i k).
  Lemma pt_cg x i k : 0 <= k < 3 -> cg (pt x i) k = cg x k + bit i k.
  Proof. intros H. unfold pt. rewrite cg_tab by auto. reflexivity. Qed.

  Lemma tau_le x y : cell x -> cell y -> (forall k, 0 <= k < 3 -> cg x k <= cg y k) -> tau x <= tau y.
  Proof.
    intros C C' L.
    assert (ST : forall u v k, cell u -> cell v -> 0 <= k < 3 -> cg u k <= cg v k -> (forall k', 0 <= k' < 3 -> k' <> k -> cg u k' = cg v k') -> tau u <= tau v).
    { intros u v k Cu Cv Hk Lk E. destruct (Z.eq_dec (cg u k) (cg v k)) as [Q|Q].
      - assert (u = v); [|subst; lia]. apply xyz_eq. intros k' Hk'. destruct (Z.eq_dec k' k) as [->|]; auto.
      - apply Z.lt_le_incl. apply (tau_mono d m n p pa pb pc Hm Hn Hp H2 u v k); auto. lia. }
    pose proof (L 0 ltac:(lia)) as L0. pose proof (L 1 ltac:(lia)) as L1. pose proof (L 2 ltac:(lia)) as L2.
    destruct x as ((x0 & x1) & x2), y as ((y0 & y1) & y2). cbn in L0, L1, L2.
    assert (Ca : cell (y0, x1, x2)) by (intros k Hk; specialize (C k Hk); specialize (C' k Hk); clear - Hk C C'; kcases k Hk; cbn in *; lia).
    assert (Cb : cell (y0, y1, x2)) by (intros k Hk; specialize (C k Hk); specialize (C' k Hk); clear - Hk C C'; kcases k Hk; cbn in *; lia).
    transitivity (tau (y0, x1, x2)); [|transitivity (tau (y0, y1, x2))].
    - apply (ST _ _ 0); auto; [lia|]. intros k Hk Nk. clear - Hk Nk. kcases k Hk; cbn; auto; lia.
    - apply (ST _ _ 1); auto; [lia|]. intros k Hk Nk. clear - Hk Nk. kcases k Hk; cbn; auto; lia.
    - apply (ST _ _ 2); auto; [lia|]. intros k Hk Nk. clear - Hk Nk. kcases k Hk; cbn; auto; lia.
  Qed.
  Lemma ch8 : 0 < ch <= 8 /\ (d = D2 -> ch = 4) /\ (d = D3 -> ch = 8).
  Proof. clear. destruct d; cbn; (split; [lia|split; intros E; (reflexivity || discriminate E)]). Qed.

  (** the corners treated before the corner i of the tree x *)
  Definition earlier (x : xyz) (i : Z) (y : xyz) (i' : Z) : Prop := cell y /\ 0 <= i' < ch /\ (tau y < tau x \/ y = x /\ i' < i).
  Definition Inv (P : xyz -> Z -> Prop) (ttv : list Z) (vs : list xyz) : Prop :=
    zlen ttv = ch * nt /\ NoDup vs /\ (forall q, In q vs -> exists y i, P y i /\ q = pt y i) /\
    (forall y i, P y i -> exists v, zget ttv (tau y * ch + i) = Some v /\ zget vs v = Some (pt y i)).

  Lemma slot x i : cell x -> 0 <= i < ch -> 0 <= tau x * ch + i < ch * nt.
  Proof. intros C I. pose proof (tau_nt d m n p pa pb pc Hm Hn Hp H2 x C). nia. Qed.

  Lemma put_slot (P P' : xyz -> Z -> Prop) ttv vs vs' x i v :
    (forall y j, P y j -> cell y /\ 0 <= j < ch) -> (forall y j, P' y j <-> P y j \/ y = x /\ j = i) ->
    cell x -> 0 <= i < ch -> ~ P x i -> Inv P ttv vs -> zget vs' v = Some (pt x i) -> NoDup vs' ->
    (forall w q, zget vs w = Some q -> zget vs' w = Some q) -> (forall q, In q vs' -> In q vs \/ q = pt x i) ->
    in_range (tau x * ch + i) 0 (zlen ttv) = true /\ Inv P' (put ttv (tau x * ch + i) v) vs'.
  Proof.
    intros PC PP C I NP (L & ND & Q & G) V ND' MO IN. pose proof (slot x i C I) as SL. split; [unfold in_range; lia|].
    split; [rewrite zlen_put; lia|]. split; [auto|]. split.
    - intros q Iq. apply IN in Iq as [Iq|Iq]; [|exists x, i; split; [apply PP; auto|auto]]. destruct (Q q Iq) as (y & j & Py & E). exists y, j. split; [apply PP; auto|auto].
    - intros y j Py. rewrite get_put by lia. destruct (tau y * ch + j =? tau x * ch + i) eqn:E.
      + assert (X : y = x /\ j = i).
        { apply PP in Py as [Py|Py]; [|auto]. destruct (PC _ _ Py) as (Cy & Iy). destruct (split_eq ch (tau y) (tau x) j i) as (E1 & E2); [lia|lia|lia|].
          split; [|auto]. apply (tau_inj d m n p pa pb pc); auto. }
        destruct X as (-> & ->). eauto.
      + apply PP in Py as [Py|(-> & ->)]; [|lia]. destruct (G y j Py) as (w & W & W'). eauto.
  Qed.

  Lemma step x i ttv vs : cell x -> 0 <= i < ch -> Inv (earlier x i) ttv vs ->
    exists ttv' vs', vertex_step d m n p N x (Some (ttv, vs)) i = Some (ttv', vs') /\ Inv (earlier x (i + 1)) ttv' vs'.
  Proof.
    intros C I J. pose proof ch8 as (CH & CH2 & CH3). unfold vertex_step.
    destruct (tau_get d m n p pa pb pc Hm Hn Hp H2 x C) as (Tx & _). rewrite Tx.
    assert (PC : forall y j, earlier x i y j -> cell y /\ 0 <= j < ch) by (intros y j (A & B & _); auto).
    assert (PP : forall y j, earlier x (i + 1) y j <-> earlier x i y j \/ y = x /\ j = i).
    { intros y j. unfold earlier. split.
      - intros (A & B & [T|(-> & T)]); [left; auto|]. destruct (Z.eq_dec j i); [right; auto|left]. split; [auto|]. split; [auto|]. right. split; [auto|lia].
      - intros [(A & B & [T|(-> & T)])|(-> & ->)]; (split; [auto|]; split; [auto|]); [left; auto|right; split; [auto|lia]|right; split; [auto|lia]]. }
    assert (NP : ~ earlier x i x i) by (intros (_ & _ & [T|(_ & T)]); lia).
    assert (COPY : forall k, 0 <= k < 3 -> (d = D2 -> k < 2) -> 0 < cg x k -> bit i k = 0 ->
      exists ttv' vs', match zget (l2t N) (lin (wrap x (foff k 0))) with
        | None => None
        | Some t => match zget ttv (t * ch + i + 2 ^ k) with
          | None => None
          | Some v => if in_range (tau x * ch + i) 0 (zlen ttv) then Some (put ttv (tau x * ch + i) v, vs) else None
          end end = Some (ttv', vs') /\ Inv (earlier x (i + 1)) ttv' vs').
    { intros k Hk K2 Pk Bk. set (y := wrap x (foff k 0)). assert (Cy : cell y) by (apply wrap_cell; auto).
      assert (Yk : forall k', 0 <= k' < 3 -> cg y k' = cg x k' + (if k' =? k then -1 else 0)).
      { intros k' Hk'. unfold y. rewrite wrap_cg by auto. unfold foff. rewrite cg_tab by auto. replace (k =? k') with (k' =? k) by lia. rewrite mod_shift by (apply size_pos; auto).
        specialize (C k' Hk'). destruct (k' =? k) eqn:E; [assert (k' = k) by lia; subst k'|]; apply Z.mod_small; lia. }
      assert (Ty : tau y < tau x).
      { apply (tau_mono d m n p pa pb pc Hm Hn Hp H2 y x k); auto.
        - rewrite Yk by auto. rewrite Z.eqb_refl. lia.
        - intros k' Hk' Nk. rewrite Yk by auto. replace (k' =? k) with false by lia. lia. }
      assert (I8 : i + 2 ^ k < ch).
      { destruct (bit_set i k k ltac:(lia) Hk Hk Bk) as (S & _). destruct (Z.eq_dec ch 8) as [E|E]; [lia|].
        assert (D : d = D2) by (clear - E; destruct d; [auto|cbn in E; lia]). rewrite (CH2 D) in *. specialize (K2 D). clear - I Hk K2 Bk.
        assert (X : i = 0 \/ i = 1 \/ i = 2 \/ i = 3) by lia. assert (Y : k = 0 \/ k = 1) by lia.
        destruct X as [->|[->|[->| ->]]], Y as [->| ->]; cbn in *; lia. }
      assert (P2 : 0 < 2 ^ k) by (apply Z.pow_pos_nonneg; lia).
      assert (PT : pt y (i + 2 ^ k) = pt x i).
      { apply xyz_eq. intros k' Hk'. rewrite !pt_cg by auto. rewrite Yk by auto. destruct (bit_set i k k' ltac:(lia) Hk Hk' Bk) as (_ & ->).
        destruct (k' =? k) eqn:E; [assert (k' = k) by lia; subst k'; lia|lia]. }
      destruct (tau_get d m n p pa pb pc Hm Hn Hp H2 y Cy) as (Ry & _). rewrite Ry.
      pose proof J as (L & ND & Q & G). destruct (G y (i + 2 ^ k)) as (v & V & V'); [split; [auto|]; split; [lia|auto]|].
      rewrite Z.add_assoc in V. rewrite V. rewrite PT in V'.
      destruct (put_slot (earlier x i) (earlier x (i + 1)) ttv vs vs x i v PC PP C I NP J V' ND) as (R & J'); [auto|auto|]. rewrite R. eauto. }
    destruct (is3 d && (0 <? cg x 2) && (bit i 2 =? 0)) eqn:E2; [|destruct ((0 <? cg x 1) && (bit i 1 =? 0)) eqn:E1; [|destruct ((0 <? cg x 0) && (bit i 0 =? 0)) eqn:E0]].
    - apply (COPY 2); [lia| |lia|lia]. intros D. rewrite D in E2. discriminate E2.
    - apply (COPY 1); lia.
    - apply (COPY 0); lia.
    - pose proof J as (L & ND & Q & G). 
      assert (NEW : ~ In (pt x i) vs).
      { intros Iq. destruct (Q _ Iq) as (y & i' & (Cy & Iy & T) & E).
        assert (EK : forall k, 0 <= k < 3 -> cg x k + bit i k = cg y k + bit i' k) by (intros k Hk; rewrite <- !pt_cg by auto; congruence).
        assert (LE : forall k, 0 <= k < 3 -> cg x k <= cg y k).
        { intros k Hk. specialize (EK k Hk). pose proof (Cy k Hk). pose proof (bit01 i k) as B. pose proof (bit01 i' k) as B'.
          destruct (Z.eq_dec (cg x k) 0); [lia|]. pose proof (C k Hk). assert (bit i k = 1); [|lia].
          assert (K : k = 0 \/ k = 1 \/ k = 2) by lia. destruct K as [->|[->| ->]]; [lia|lia|].
          destruct (is3 d) eqn:D; [lia|]. exfalso. assert (D' : d = D2) by (clear - D; destruct d; [auto|discriminate]). assert (S2 : size 2 = 1) by (clear - H2 D'; destruct (H2 D') as (P1 & _); exact P1). lia. }
        pose proof (tau_le x y C Cy LE) as TL. destruct T as [T|(-> & T)]; [lia|].
        rewrite (bits_back i), (bits_back i') in T by lia. pose proof (EK 0 ltac:(lia)). pose proof (EK 1 ltac:(lia)). pose proof (EK 2 ltac:(lia)). lia. }
      destruct (put_slot (earlier x i) (earlier x (i + 1)) ttv vs (vs ++ [pt x i]) x i (zlen vs) PC PP C I NP J) as (R & J').
      + rewrite zg_app2 by lia. rewrite Z.sub_diag. reflexivity.
      + apply nodup_app; [auto|repeat constructor; auto|]. intros q A [<-|[]]. auto.
      + intros w q W. pose proof (zget_range _ _ _ W). rewrite zg_app1 by lia. auto.
      + intros q A. apply in_app_iff in A as [A|[A|[]]]; auto.
      + rewrite R. eexists _, _. split; [reflexivity|]. exact J'.
  Qed.

  Lemma tree_step x ttv vs : cell x -> Inv (earlier x 0) ttv vs ->
    exists ttv' vs', tree_vertices d m n p N (Some (ttv, vs)) x = Some (ttv', vs') /\ Inv (earlier x ch) ttv' vs'.
  Proof.
    intros C J. unfold tree_vertices. assert (CH : 0 <= ch) by (pose proof ch8; lia).
    assert (G : forall k, 0 <= k -> k <= ch -> exists ttv' vs', fold_left (vertex_step d m n p N x) (upto k) (Some (ttv, vs)) = Some (ttv', vs') /\ Inv (earlier x k) ttv' vs').
    { intros k Hk. pattern k. apply natlike_ind; [| |exact Hk].
      - intros _. exists ttv, vs. rewrite upto_0 by lia. auto.
      - clear k Hk. intros k Hk IH L. unfold Z.succ in *. destruct (IH ltac:(lia)) as (t & v & E & J'). rewrite upto_S, fold_left_app by lia. cbn [fold_left]. rewrite E.
        apply step; auto. lia. }
    apply G; lia.
  Qed.

  Lemma Inv_ext P P' ttv vs : (forall y i, P y i <-> P' y i) -> Inv P ttv vs -> Inv P' ttv vs.
  Proof.
    intros E (L & ND & Q & G). split; [auto|]. split; [auto|]. split.
    - intros q I. destruct (Q q I) as (y & i & A & B). exists y, i. split; [apply E; auto|auto].
    - intros y i A. apply G. apply E. auto.
  Qed.
  Definition before_t (t : Z) (y : xyz) (i : Z) : Prop := cell y /\ 0 <= i < ch /\ tau y < t.

  Lemma all_trees : forall l t ttv vs, (forall j x, zget l j = Some x -> cell x /\ tau x = t + j) -> Inv (before_t t) ttv vs ->
    exists ttv' vs', fold_left (tree_vertices d m n p N) l (Some (ttv, vs)) = Some (ttv', vs') /\ Inv (before_t (t + zlen l)) ttv' vs'.
  Proof.
    induction l as [|x l IH]; intros t ttv vs H J; cbn [fold_left].
    - exists ttv, vs. split; [auto|]. unfold zlen. cbn [length]. rewrite Z.add_0_r. auto.
    - destruct (H 0 x eq_refl) as (C & T). rewrite Z.add_0_r in T.
      destruct (tree_step x ttv vs C) as (t1 & v1 & E & J1).
      { revert J. apply Inv_ext. intros y i. unfold before_t, earlier. rewrite T. split; [intros (A & B & D); auto|]. intros (A & B & [D|(_ & D)]); [auto|lia]. }
      rewrite E. destruct (IH (t + 1) t1 v1) as (t2 & v2 & E2 & J2).
      + intros j y Y. pose proof (zget_range _ _ _ Y). destruct (H (j + 1) y) as (A & B); [rewrite zget_cons; replace (j + 1 =? 0) with false by lia; rewrite Z.add_simpl_r; auto|]. split; [auto|lia].
      + revert J1. apply Inv_ext. intros y i. unfold before_t, earlier. rewrite T. split.
        * intros (A & B & [D|(-> & D)]); (split; [auto|]; split; [auto|lia]).
        * intros (A & B & D). split; [auto|]. split; [auto|]. destruct (Z.eq_dec (tau y) t) as [Q|Q]; [right; split; [|lia]|left; lia].
          apply (tau_inj d m n p pa pb pc); auto. lia.
      + exists t2, v2. split; [auto|]. replace (t + zlen (x :: l)) with (t + 1 + zlen l) by (unfold zlen; cbn [length]; lia). auto.
  Qed.

  Theorem vertices_get : exists ttv vs, fold_left (tree_vertices d m n p N) xs (Some (repeat (-1) (Z.to_nat (ch * nt)), [])) = Some (ttv, vs) /\
    zlen ttv = ch * nt /\ zlen vs = num_vertices d m n p /\ NoDup vs /\
    forall x i, cell x -> 0 <= i < ch -> exists v, zget ttv (tau x * ch + i) = Some v /\ 0 <= v < num_vertices d m n p /\ zget vs v = Some (pt x i).
  Proof.
    pose proof ch8 as (CH & CH2 & CH3).
    destruct (all_trees xs 0 (repeat (-1) (Z.to_nat (ch * nt))) []) as (ttv & vs & E & J).
    - intros j x X. rewrite Z.add_0_l. assert (C : cell x) by (apply (in_xs d m n p pc); auto; eapply zget_in; eauto). split; [auto|].
      eapply (nodup_zget xs); [apply (xs_nodup d m n p pc); auto|apply (tau_get d m n p pa pb pc); auto|auto].
    - split; [unfold zlen; rewrite repeat_length; pose proof (nt_pos m n p Hm Hn Hp); nia|]. split; [constructor|]. split; [intros q []|].
      intros y i (C & _ & T). pose proof (tau_nt d m n p pa pb pc Hm Hn Hp H2 y C). lia.
    - rewrite Z.add_0_l in J. exists ttv, vs. split; [auto|]. destruct J as (L & ND & Q & G). split; [auto|].
      assert (ALL : forall x i, cell x -> 0 <= i < ch -> before_t (zlen xs) x i).
      { intros x i C I. split; [auto|]. split; [auto|]. rewrite (xs_len d m n p pc) by auto. apply tau_nt; auto. }
      assert (LEN : zlen vs = num_vertices d m n p).
      { unfold num_vertices. rewrite <- (box_len (m + 1) (n + 1) (if is3 d then p + 1 else 1)); [|lia|lia|destruct (is3 d); lia].
        apply same_length; [auto|apply box_nodup|]. intros q. rewrite in_boxl. split.
        - intros I. destruct (Q q I) as (y & i & (C & Ri & _) & ->). rewrite !pt_cg by lia. pose proof (bit01 i 0). pose proof (bit01 i 1). pose proof (bit01 i 2).
          pose proof (proj1 (cell_alt d m n p pc H2 y) C). split; [lia|]. split; [lia|]. destruct (is3 d) eqn:D; [lia|].
          assert (D' : d = D2) by (clear - D; destruct d; [auto|discriminate]). rewrite (CH2 D') in Ri. destruct (H2 D') as (P1 & _). rewrite P1 in *.
          assert (B : bit i 2 = 0) by (clear - Ri; assert (X : i = 0 \/ i = 1 \/ i = 2 \/ i = 3) by lia; destruct X as [->|[->|[->| ->]]]; reflexivity). lia.
        - intros (B0 & B1 & B2).
          assert (B2' : 0 <= cg q 2 < p + 1) by (destruct (is3 d); lia).
          set (y := tabulate (fun k => Z.min (cg q k) (size k - 1))).
          assert (Yk : forall k, 0 <= k < 3 -> cg y k = Z.min (cg q k) (size k - 1)) by (intros k Hk; unfold y; rewrite cg_tab by auto; reflexivity).
          assert (Qk : forall k, 0 <= k < 3 -> 0 <= cg q k < size k + 1) by (intros k Hk; clear - Hk B0 B1 B2'; kcases k Hk; cbn [Brick.size cg Z.eqb Pos.eqb]; lia).
          assert (Cy : cell y) by (intros k Hk; rewrite Yk by auto; pose proof (size_pos m n p Hm Hn Hp k Hk); specialize (Qk k Hk); lia).
          assert (B01 : forall k, 0 <= k < 3 -> cg q k - cg y k = 0 \/ cg q k - cg y k = 1) by (intros k Hk; rewrite Yk by auto; specialize (Qk k Hk); lia).
          set (i := (cg q 0 - cg y 0) + 2 * (cg q 1 - cg y 1) + 4 * (cg q 2 - cg y 2)).
          assert (Bi : forall k, 0 <= k < 3 -> bit i k = cg q k - cg y k).
          { intros k Hk. unfold i. rewrite bits_of; auto; try (apply B01; lia). clear - Hk. kcases k Hk; reflexivity. }
          pose proof (B01 0 ltac:(lia)). pose proof (B01 1 ltac:(lia)). pose proof (B01 2 ltac:(lia)).
          assert (Ri : 0 <= i < ch).
          { destruct (is3 d) eqn:D.
            - assert (D' : d = D3) by (clear - D; destruct d; [discriminate|auto]). rewrite (CH3 D'). unfold i. lia.
            - assert (D' : d = D2) by (clear - D; destruct d; [auto|discriminate]). rewrite (CH2 D'). pose proof (Cy 2 ltac:(lia)). unfold i. lia. }
          destruct (G y i (ALL y i Cy Ri)) as (v & _ & V). replace q with (pt y i); [eapply zget_in; eauto|].
          apply xyz_eq. intros k Hk. rewrite pt_cg, Bi by auto. lia. }
      split; [auto|]. split; [auto|]. intros x i C I. destruct (G x i (ALL x i C I)) as (v & V & W). exists v. split; [auto|]. split; [|auto].
      pose proof (zget_range _ _ _ W). lia.
  Qed.
End Vertex.
