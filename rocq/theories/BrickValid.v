(** * The connectivity of a brick is valid *)

From Coq Require Import ZArith List Bool Lia ZifyBool.
From Verif Require Import Quad Spec Neighbor Transform Partition Conn ConnLemmas ConnBounds Permute PermuteArray Brick BrickBits BrickNumber BrickWrite BrickVertex.
Import ListNotations.
Open Scope Z_scope.

Lemma nf_andthen a b : a <> Some false -> b <> Some false -> andthen a b <> Some false.
Proof. destruct a as [[|]|]; cbn; congruence. Qed.
Lemma nf_each f : forall n i, (forall j, i <= j < i + Z.of_nat n -> f j <> Some false) -> each f i n <> Some false.
Proof.
  induction n as [|n IH]; intros i H; cbn [each]; [discriminate|]. apply nf_andthen; [apply H; lia|]. apply IH. intros j Hj. apply H. lia.
Qed.
Lemma nf_with o f : (forall v, o = Some v -> f v <> Some false) -> with_ o f <> Some false.
Proof. destruct o; cbn; [auto|discriminate]. Qed.
Lemma nf_true b : b = true -> Some b <> Some false.
Proof. congruence. Qed.
Lemma offs_get f n i : 0 <= i < n -> zget (map (fun j => f * j) (upto n)) i = Some (f * i).
Proof. intros H. rewrite map_get, upto_get by auto. reflexivity. Qed.
Lemma offs_len f n : 0 <= n -> zlen (map (fun j => f * j) (upto n)) = n.
Proof. intros H. unfold zlen. rewrite map_length. apply upto_len in H. auto. Qed.

Lemma some_inj {A} (a b : A) : Some a = Some b -> a = b.
Proof. congruence. Qed.
Lemma zlen_pos {A} (l : list A) : 0 <= zlen l.
Proof. unfold zlen. lia. Qed.
Lemma in_zget {A} (l : list A) x : In x l -> exists k, zget l k = Some x.
Proof.
  intros I. destruct (In_nth_error _ _ I) as [k E]. exists (Z.of_nat k). unfold zget. replace (Z.of_nat k <? 0) with false by lia. rewrite Nat2Z.id. exact E.
Qed.
Lemma edge_loop_four c t ae b i j : 0 <= i < 3 -> 0 <= j < 4 ->
  (forall j', 0 <= j' < 4 -> exists t', zget (c_ett c) (b + (3 - j')) = Some t' /\ zget (c_ete c) (b + (3 - j')) = Some (i * 4 + j') /\
     zget (c_tte c) (t' * 12 + (i * 4 + j')) = Some ae /\ (j' = j -> t' = t)) ->
  edge_loop c t (i * 4 + j) ae 4 b (-1) = Some (Some 0).
Proof.
  intros Hi Hj H.
  assert (R : forall j', 0 <= j' < 4 -> Z.rem (i * 4 + j') 12 = i * 4 + j' /\ Z.quot (i * 4 + j') 12 = 0) by (intros j' Hj'; split; [apply Z.rem_small|apply Z.quot_small]; lia).
  destruct (H 3) as (t3 & A3 & B3 & C3 & D3); [lia|]. destruct (H 2) as (t2 & A2 & B2 & C2 & D2); [lia|].
  destruct (H 1) as (t1 & A1 & B1 & C1 & D1); [lia|]. destruct (H 0) as (t0 & A0 & B0 & C0 & D0); [lia|]. clear H.
  destruct (R 3) as [R3 Q3]; [lia|]. destruct (R 2) as [R2 Q2]; [lia|]. destruct (R 1) as [R1 Q1]; [lia|]. destruct (R 0) as [R0 Q0]; [lia|]. clear R.
  replace (b + (3 - 3)) with b in * by lia. replace (b + (3 - 2)) with (b + 1) in * by lia.
  replace (b + (3 - 1)) with (b + 1 + 1) in * by lia. replace (b + (3 - 0)) with (b + 1 + 1 + 1) in * by lia.
  cbn [edge_loop]. rewrite A3, B3, R3, C3, Z.eqb_refl, A2, B2, R2, C2, Z.eqb_refl, A1, B1, R1, C1, Z.eqb_refl, A0, B0, R0, C0, Z.eqb_refl, Q3, Q2, Q1, Q0. cbn [negb].
  assert (J : j = 0 \/ j = 1 \/ j = 2 \/ j = 3) by lia. destruct J as [E|[E|[E|E]]]; subst j.
  - rewrite D0, !Z.eqb_refl by auto. cbn [andb]. repeat (match goal with |- context [(i * 4 + ?a =? i * 4 + ?b)] => replace (i * 4 + a =? i * 4 + b) with false by lia end; rewrite ?andb_false_r). reflexivity.
  - rewrite D1, !Z.eqb_refl by auto. cbn [andb]. repeat (match goal with |- context [(i * 4 + ?a =? i * 4 + ?b)] => replace (i * 4 + a =? i * 4 + b) with false by lia end; rewrite ?andb_false_r). reflexivity.
  - rewrite D2, !Z.eqb_refl by auto. cbn [andb]. repeat (match goal with |- context [(i * 4 + ?a =? i * 4 + ?b)] => replace (i * 4 + a =? i * 4 + b) with false by lia end; rewrite ?andb_false_r). reflexivity.
  - rewrite D3, !Z.eqb_refl by auto. cbn [andb]. repeat (match goal with |- context [(i * 4 + ?a =? i * 4 + ?b)] => replace (i * 4 + a =? i * 4 + b) with false by lia end; rewrite ?andb_false_r). reflexivity.
Qed.
Lemma corner_loop_all d c t ac b i N : 0 <= i ->
  (forall i', 0 <= i' < N -> exists t', zget (c_ctt c) (b + (N - 1 - i')) = Some t' /\ zget (c_ctc c) (b + (N - 1 - i')) = Some i' /\
     zget (c_ttc c) (t' * children d + i') = Some ac /\ (i' = i -> t' = t)) ->
  forall k, Z.of_nat k <= N -> corner_loop d c t i ac k (b + (N - Z.of_nat k)) (Z.of_nat k <=? i) = Some (Some true).
Proof.
  intros Hi H. induction k as [|k IH]; intros Hk.
  - cbn [corner_loop]. replace (Z.of_nat 0 <=? i) with true by lia. reflexivity.
  - cbn [corner_loop]. destruct (H (Z.of_nat k)) as (t' & A & B & C & D); [lia|].
    replace (b + (N - Z.of_nat (S k))) with (b + (N - 1 - Z.of_nat k)) by lia. rewrite A, B, C, Z.eqb_refl. cbn [negb].
    replace (b + (N - 1 - Z.of_nat k) + 1) with (b + (N - Z.of_nat k)) by lia.
    destruct (Z.eq_dec (Z.of_nat k) i) as [E|E].
    + rewrite D, E, !Z.eqb_refl by auto. cbn [andb]. replace (Z.of_nat (S k) <=? i) with false by lia.
      specialize (IH ltac:(lia)). replace (Z.of_nat k <=? i) with true in IH by lia. rewrite <- E. rewrite <- E in IH. exact IH.
    + replace (Z.of_nat k =? i) with false by lia. rewrite andb_false_r.
      replace (Z.of_nat (S k) <=? i) with (Z.of_nat k <=? i) by lia. apply IH. lia.
Qed.

Section Valid.
  Variables (d : dim) (m n p : Z) (pa pb pc : bool).
  Hypothesis Hm : 0 < m.
  Hypothesis Hn : 0 < n.
  Hypothesis Hp : 0 < p.
  Hypothesis H2 : d = D2 -> p = 1 /\ pc = true.

  Local Notation size := (size m n p).
  Local Notation cflag := (cflag m n p pa pb pc).
  Local Notation eflag := (eflag m n p pa pb pc).
  Local Notation outer := (outer m n p pa pb pc).
  Local Notation eouter := (eouter m n p pa pb pc).
  Local Notation couter := (couter m n p pa pb pc).
  Local Notation cell := (cell m n p).
  Local Notation wrap := (wrap m n p).
  Local Notation tau := (tau d m n p pa pb pc).
  Local Notation gam := (gam d m n p pa pb pc).
  Local Notation eps := (eps d m n p pa pb pc).
  Local Notation nt := (num_trees m n p).
  Local Notation nc := (num_corners m n p pa pb pc).
  Local Notation ne := (num_edges d m n p pa pb pc).
  Local Notation nv := (num_vertices d m n p).
  Local Notation ch := (children d).

  Record bfacts (dbl : Z -> Z) (c : conn) (vs : list xyz) : Prop := {
    bf_nv : c_nv c = nv; bf_nt : c_nt c = nt; bf_ne : c_ne c = ne; bf_nc : c_nc c = nc;
    bf_attr : c_attr c = 0; bf_tta : c_tta c = None;
    bf_vx : c_vertices c = Some (flat_map (fun q => [dbl (cg q 0); dbl (cg q 1); dbl (cg q 2)]) vs);
    bf_vs : zlen vs = nv /\ NoDup vs;
    bf_ttv : exists l, c_ttv c = Some l /\ zlen l = ch * nt /\
      forall x i, cell x -> 0 <= i < ch -> exists v, zget l (tau x * ch + i) = Some v /\ 0 <= v < nv /\ zget vs v = Some (pt x i);
    bf_ttt : zlen (c_ttt c) = faces d * nt /\ forall x i j, cell x -> 0 <= i < nd d -> 0 <= j < 2 ->
      zget (c_ttt c) (tau x * faces d + (2 * i + j)) = Some (if outer x i j then tau x else tau (wrap x (foff i j)));
    bf_ttf : zlen (c_ttf c) = faces d * nt /\ forall x i j, cell x -> 0 <= i < nd d -> 0 <= j < 2 ->
      zget (c_ttf c) (tau x * faces d + (2 * i + j)) = Some (if outer x i j then 2 * i + j else i * 2 + (1 - j));
    bf_e : d = D3 -> c_eoff c = map (fun i => 4 * i) (upto (ne + 1)) /\ (ne <= 0 -> c_tte c = [] /\ c_ett c = [] /\ c_ete c = []) /\
      (0 < ne -> zlen (c_tte c) = 12 * nt /\ zlen (c_ett c) = 4 * ne /\ zlen (c_ete c) = 4 * ne /\
        (forall x i j, cell x -> 0 <= i < 3 -> 0 <= j < 4 -> zget (c_tte c) (tau x * 12 + (i * 4 + j)) = Some (if eouter x i j then -1 else eps (wrap x (elo i j)) i)) /\
        (forall y i j, cell y -> 0 <= i < 3 -> 0 <= j < 4 -> eflag y i = true ->
           zget (c_ett c) (4 * eps y i + (3 - j)) = Some (tau (wrap y (ehi i j))) /\ zget (c_ete c) (4 * eps y i + (3 - j)) = Some (i * 4 + j)));
    bf_e2 : d = D2 -> c_eoff c = [] /\ c_tte c = [] /\ c_ett c = [] /\ c_ete c = [];
    bf_c : c_coff c = map (fun i => ch * i) (upto (nc + 1)) /\ (nc <= 0 -> c_ttc c = [] /\ c_ctt c = [] /\ c_ctc c = []) /\
      (0 < nc -> zlen (c_ttc c) = ch * nt /\ zlen (c_ctt c) = ch * nc /\ zlen (c_ctc c) = ch * nc /\
        (forall x i, cell x -> 0 <= i < ch -> zget (c_ttc c) (tau x * ch + i) = Some (if couter x i then -1 else gam (wrap x (clo i)))) /\
        (forall y i, cell y -> 0 <= i < ch -> cflag y = true ->
           zget (c_ctt c) (gam y * ch + (ch - 1 - i)) = Some (tau (wrap y (chi i))) /\ zget (c_ctc c) (gam y * ch + (ch - 1 - i)) = Some i)) }.

  Lemma brick_is dbl : fits d m n p pa pb pc = true -> exists c vs, brick d m n p pa pb pc dbl = Some c /\ bfacts dbl c vs.
  Proof.
    intros FI. unfold brick. rewrite FI. cbn [negb].
    rewrite (mapo_some _ (TW d m n p pa pb pc (0 <? ne) (0 <? nc))) by (intros x I; apply tree_writes_is; auto; apply (in_xs d m n p pc); auto).
    destruct (vertices_get d m n p pa pb pc Hm Hn Hp H2) as (ttv & vs & EV & LV & LVS & NDV & GV). rewrite EV.
    change (concat (map (TW d m n p pa pb pc (0 <? ne) (0 <? nc)) (filter (in_box m n p) (map (l2x d (lg m n p) (rk d m n p)) (upto (n_iter m n p))))))
      with (ws d m n p pa pb pc (0 <? ne) (0 <? nc)).
    destruct (ttt_get d m n p pa pb pc Hm Hn Hp H2 (0 <? ne) (0 <? nc)) as (ttt & ET & LT & GT). rewrite ET.
    destruct (ttf_get d m n p pa pb pc Hm Hn Hp H2 (0 <? ne) (0 <? nc)) as (ttf & EF & LF & GF). rewrite EF.
    set (W := ws d m n p pa pb pc (0 <? ne) (0 <? nc)) in *.
    assert (XE : exists tte ett ete, array W TTE (12 * (if 0 <? (if 0 <? ne then ne else 0) then nt else 0)) = Some tte /\
      array W ETT (4 * (if 0 <? ne then ne else 0)) = Some ett /\ array W ETE (4 * (if 0 <? ne then ne else 0)) = Some ete /\
      (ne <= 0 -> tte = [] /\ ett = [] /\ ete = []) /\
      (d = D3 -> 0 < ne -> zlen tte = 12 * nt /\ zlen ett = 4 * ne /\ zlen ete = 4 * ne /\
        (forall x i j, cell x -> 0 <= i < 3 -> 0 <= j < 4 -> zget tte (tau x * 12 + (i * 4 + j)) = Some (if eouter x i j then -1 else eps (wrap x (elo i j)) i)) /\
        (forall y i j, cell y -> 0 <= i < 3 -> 0 <= j < 4 -> eflag y i = true ->
           zget ett (4 * eps y i + (3 - j)) = Some (tau (wrap y (ehi i j))) /\ zget ete (4 * eps y i + (3 - j)) = Some (i * 4 + j)))).
    { destruct (0 <? ne) eqn:EN.
      - replace (0 <? ne) with true by lia. assert (D : d = D3) by (clear - EN; unfold num_edges in EN; destruct d; [discriminate|auto]).
        destruct (tte_get d m n p pa pb pc Hm Hn Hp H2 true (0 <? nc) D eq_refl) as (tte & E1 & L1 & G1).
        destruct (ett_get d m n p pa pb pc Hm Hn Hp H2 true (0 <? nc) D eq_refl) as (ett & ete & E2 & L2 & E3 & L3 & G2).
        assert (NE : ne = m * csize m n p pa pb pc 1 * csize m n p pa pb pc 2 + csize m n p pa pb pc 0 * n * csize m n p pa pb pc 2 + csize m n p pa pb pc 0 * csize m n p pa pb pc 1 * p)
          by (unfold num_edges; rewrite D; reflexivity).
        rewrite <- NE in E2, E3, L2, L3. exists tte, ett, ete. split; [exact E1|]. split; [exact E2|]. split; [exact E3|]. split; [lia|]. intros _ _. auto.
      - cbn [Z.ltb Z.compare]. exists [], [], []. split; [apply (none_get d m n p pa pb pc Hm Hn Hp H2); auto|]. split; [apply (none_get d m n p pa pb pc Hm Hn Hp H2); auto|].
        split; [apply (none_get d m n p pa pb pc Hm Hn Hp H2); auto|]. split; [auto|lia]. }
    destruct XE as (tte & ett & ete & E1 & E2 & E3 & Z0 & Z1). rewrite E1, E2, E3.
    assert (XC : exists ttc ctt ctc, array W TTC (ch * (if 0 <? (if 0 <? nc then nc else 0) then nt else 0)) = Some ttc /\
      array W CTT (ch * (if 0 <? nc then nc else 0)) = Some ctt /\ array W CTC (ch * (if 0 <? nc then nc else 0)) = Some ctc /\
      (nc <= 0 -> ttc = [] /\ ctt = [] /\ ctc = []) /\
      (0 < nc -> zlen ttc = ch * nt /\ zlen ctt = ch * nc /\ zlen ctc = ch * nc /\
        (forall x i, cell x -> 0 <= i < ch -> zget ttc (tau x * ch + i) = Some (if couter x i then -1 else gam (wrap x (clo i)))) /\
        (forall y i, cell y -> 0 <= i < ch -> cflag y = true ->
           zget ctt (gam y * ch + (ch - 1 - i)) = Some (tau (wrap y (chi i))) /\ zget ctc (gam y * ch + (ch - 1 - i)) = Some i))).
    { destruct (0 <? nc) eqn:EN.
      - replace (0 <? nc) with true by lia.
        destruct (ttc_get d m n p pa pb pc Hm Hn Hp H2 (0 <? ne) true eq_refl) as (ttc & F1 & L1 & G1).
        destruct (ctt_get d m n p pa pb pc Hm Hn Hp H2 (0 <? ne) true eq_refl) as (ctt & ctc & F2 & L2 & F3 & L3 & G2).
        exists ttc, ctt, ctc. split; [exact F1|]. split; [exact F2|]. split; [exact F3|]. split; [lia|]. intros _. auto.
      - cbn [Z.ltb Z.compare]. rewrite Z.mul_0_r. exists [], [], []. split; [apply (none_get d m n p pa pb pc Hm Hn Hp H2); auto|]. split; [apply (none_get d m n p pa pb pc Hm Hn Hp H2); auto|].
        split; [apply (none_get d m n p pa pb pc Hm Hn Hp H2); auto|]. split; [auto|lia]. }
    destruct XC as (ttc & ctt & ctc & F1 & F2 & F3 & Y0 & Y1). rewrite F1, F2, F3.
    eexists _, vs. split; [reflexivity|]. constructor; cbn [c_nv c_nt c_ne c_nc c_attr c_tta c_vertices c_ttv c_ttt c_ttf c_eoff c_tte c_ett c_ete c_coff c_ttc c_ctt c_ctc]; auto.
    - exists ttv. auto.
    - intros D. split; [rewrite D; reflexivity|auto].
    - intros D. assert (N0 : ne = 0) by (unfold num_edges; rewrite D; reflexivity). split; [rewrite D; reflexivity|apply Z0; lia].
  Qed.

  (** every entry of an array with [F] entries per tree *)
  Lemma per_tree F k : 0 < F -> 0 <= k < F * nt -> exists x r, cell x /\ 0 <= r < F /\ k = tau x * F + r.
  Proof.
    intros HF Hk. destruct (tau_onto d m n p pa pb pc Hm Hn Hp H2 (k / F)) as (x & X & E).
    - rewrite (xs_len d m n p pc Hm Hn Hp H2). split; [apply Z.div_pos; lia|apply Z.div_lt_upper_bound; lia].
    - exists x, (k mod F). split; [auto|]. split; [apply Z.mod_pos_bound; auto|]. rewrite E. pose proof (Z.div_mod k F). lia.
  Qed.
  Lemma ne_is3 : d = D3 -> ne = m * csize m n p pa pb pc 1 * csize m n p pa pb pc 2 + csize m n p pa pb pc 0 * n * csize m n p pa pb pc 2 + csize m n p pa pb pc 0 * csize m n p pa pb pc 1 * p.
  Proof. intros D. unfold num_edges. rewrite D. reflexivity. Qed.
  Lemma ne_nonneg : 0 <= ne.
  Proof.
    pose proof (ne_pos d m n p pa pb pc Hm Hn Hp H2). unfold num_edges. destruct (is3 d); [auto|lia].
  Qed.
  Lemma tta x : cell x -> 0 <= tau x < nt.
  Proof. apply tau_nt; auto. Qed.

  Section Conn.
  Variables (dbl : Z -> Z) (c : conn) (vs : list xyz).
  Hypothesis B : bfacts dbl c vs.

  Lemma brick_allocated : allocated d c.
  Proof.
    destruct B as [Bnv Bnt Bne Bnc Bat Bta Bvx Bvs Bttv Bttt Bttf Be Be2 Bc].
    pose proof ne_nonneg as NE. pose proof (nc_pos d m n p pa pb pc Hm Hn Hp H2) as NC. pose proof (nt_pos m n p Hm Hn Hp) as NT.
    unfold allocated. rewrite Bnv, Bnt, Bne, Bnc.
    split; [destruct Bvs; subst; pose proof (zlen_pos vs); lia|]. split; [lia|]. split; [lia|]. split; [lia|].
    split; [intros _; destruct Bttv as (l & E & L & _); exists l; split; [auto|lia]|].
    split; [destruct Bttt; lia|]. split; [destruct Bttf; lia|]. split.
    - intros D. destruct (Be D) as (E & _ & X). rewrite E, offs_len by lia. split; [auto|]. intros P. destruct (X P) as (L1 & L2 & L3 & _).
      rewrite offs_get by lia. split; [lia|]. split; [lia|]. f_equal. lia.
    - destruct Bc as (E & _ & X). rewrite E, offs_len by lia. split; [auto|]. intros P. destruct (X P) as (L1 & L2 & L3 & _).
      rewrite offs_get by lia. split; [lia|]. split; [lia|]. f_equal. lia.
  Qed.

  Lemma brick_not_none : conn_is_valid d c <> None.
  Proof.
    pose proof brick_allocated as AL.
    destruct B as [Bnv Bnt Bne Bnc Bat Bta Bvx Bvs Bttv Bttt Bttf Be Be2 Bc].
    pose proof ne_nonneg as NE. pose proof (nc_pos d m n p pa pb pc Hm Hn Hp H2) as NC. pose proof (nt_pos m n p Hm Hn Hp) as NT.
    pose proof (ch8 d) as C8.
    apply conn_in_bounds; auto.
    - unfold indices_ok. destruct Bc as (E & Z0 & X). rewrite Bnc, E, offs_get by lia. split; [intros _; f_equal; lia|]. split; [|intros x Q; assert (x = 0) by (injection Q; lia); lia].
      intros v I. destruct (Z.eq_dec nc 0) as [N0|N0]; [destruct (Z0 ltac:(lia)) as (Q & _); rewrite Q in I; destruct I|].
      destruct (X ltac:(lia)) as (L1 & _ & _ & G & _). apply in_zget in I. destruct I as (k & K). pose proof (zget_range _ _ _ K) as R.
      destruct (per_tree ch k) as (x & r & CX & HR & Ek); [lia|lia|]. subst k. rewrite G in K by auto. apply some_inj in K. subst v.
      destruct (couter x r) eqn:CO; [lia|]. pose proof (gam_nc d m n p pa pb pc Hm Hn Hp H2 (wrap x (clo r))) as GN.
      assert (W : cell (wrap x (clo r))) by (apply wrap_cell; auto). specialize (GN W (clo_flag d m n p pa pb pc Hm Hn Hp H2 x r CX CO)). lia.
    - intros D. unfold indices_ok. destruct (Be D) as (E & Z0 & X). rewrite Bne, E, offs_get by lia. split; [intros _; f_equal; lia|]. split; [|intros x Q; assert (x = 0) by (injection Q; lia); lia].
      intros v I. destruct (Z.eq_dec ne 0) as [N0|N0]; [destruct (Z0 ltac:(lia)) as (Q & _); rewrite Q in I; destruct I|].
      destruct (X ltac:(lia)) as (L1 & _ & _ & G & _). apply in_zget in I. destruct I as (k & K). pose proof (zget_range _ _ _ K) as R.
      destruct (per_tree 12 k) as (x & r & CX & HR & Ek); [lia|lia|]. subst k.
      pose proof (Z.div_mod r 4 ltac:(lia)) as DM. pose proof (Z.mod_pos_bound r 4 ltac:(lia)) as MB.
      replace r with (r / 4 * 4 + r mod 4) in K by lia. rewrite G in K by lia || auto. apply some_inj in K. subst v.
      destruct (eouter x (r / 4) (r mod 4)) eqn:CO; [lia|].
      assert (W : cell (wrap x (elo (r / 4) (r mod 4)))) by (apply wrap_cell; auto).
      pose proof (eps_ne d m n p pa pb pc Hm Hn Hp H2 _ (r / 4) W ltac:(lia) (elo_flag d m n p pa pb pc Hm Hn Hp H2 x (r / 4) (r mod 4) CX ltac:(lia) MB CO)) as EN.
      rewrite <- ne_is3 in EN by auto. lia.
  Qed.

  (** the neighbor across a face looks back *)
  Lemma outer_back x i j : cell x -> 0 <= i < 3 -> 0 <= j < 2 -> outer x i j = false -> outer (wrap x (foff i j)) i (1 - j) = false.
  Proof.
    intros X Hi Hj O. pose proof (wrap_cg m n p x (foff i j) i Hi) as W.
    specialize (X i Hi). assert (F : cg (foff i j) i = 2 * j - 1) by (unfold foff; rewrite cg_tab, Z.eqb_refl by auto; reflexivity). rewrite F in W.
    rewrite mod_shift in W by (apply spos; auto). unfold Brick.outer in *. destruct (per pa pb pc i); [reflexivity|]. cbn [negb andb] in *.
    assert (J : j = 0 \/ j = 1) by lia. destruct J; subst j; rewrite Z.mod_small in W by lia; lia.
  Qed.

  Lemma brick_face x r : cell x -> 0 <= r < faces d -> valid_face d c (tau x) r <> Some false.
  Proof.
    intros X Hr. destruct B as [Bnv Bnt Bne Bnc Bat Bta Bvx Bvs Bttv [Lt Gt] [Lf Gf] Be Be2 Bc].
    assert (ND : faces d = 2 * nd d) by (apply faces_nd). assert (N3 : nd d <= 3) by (clear; destruct d; cbn; lia).
    pose proof (Z.div_mod r 2 ltac:(lia)) as DM. pose proof (Z.mod_pos_bound r 2 ltac:(lia)) as MB.
    set (i := r / 2) in *. set (j := r mod 2) in *. assert (Hi : 0 <= i < nd d) by lia. rewrite DM. clear DM.
    unfold valid_face. rewrite Gt, Gf by auto. cbn [with_]. rewrite Bnt.
    assert (HF : 0 < half d) by (clear; destruct d; cbn; lia).
    destruct (outer x i j) eqn:O.
    - pose proof (tta x X) as T. apply nf_andthen; [apply nf_true; apply range_true; auto|]. apply nf_andthen; [apply nf_true, range_true; nia|].
      rewrite Z.mod_small, Z.div_small by lia. rewrite !Z.eqb_refl. cbn. discriminate.
    - assert (W : cell (wrap x (foff i j))) by (apply wrap_cell; auto). pose proof (tta _ W) as T.
      apply nf_andthen; [apply nf_true; apply range_true; auto|]. apply nf_andthen; [apply nf_true, range_true; nia|].
      assert (R1 : (i * 2 + (1 - j)) mod faces d = 2 * i + (1 - j)) by (rewrite Z.mod_small by lia; lia).
      assert (R2 : (i * 2 + (1 - j)) / faces d = 0) by (apply Z.div_small; lia). rewrite R1, R2.
      apply nf_andthen; [apply nf_true; rewrite Z.eqb_refl, andb_false_r; reflexivity|].
      destruct (negb _ || negb _); [|discriminate].
      rewrite Gt, Gf by lia || auto. cbn [with_]. rewrite outer_back by lia || auto.
      rewrite (wrap_back d m n p pc Hm Hn Hp H2 x) by (auto || (intros k Hk; apply (foff_back d p pc H2); auto)). rewrite Z.eqb_refl. cbn [andthen].
      apply nf_true. lia.
  Qed.

  Lemma brick_edge x r : d = D3 -> 0 < ne -> cell x -> 0 <= r < 12 -> valid_edge c (4 * ne) (tau x) r <> Some false.
  Proof.
    intros D P X Hr. destruct B as [Bnv Bnt Bne Bnc Bat Bta Bvx Bvs Bttv Bttt Bttf Be Be2 Bc].
    destruct (Be D) as (EO & _ & XX). destruct (XX P) as (L1 & L2 & L3 & G1 & G2). clear XX Be Be2 Bc.
    pose proof (Z.div_mod r 4 ltac:(lia)) as DM. pose proof (Z.mod_pos_bound r 4 ltac:(lia)) as MB.
    set (i := r / 4) in *. set (j := r mod 4) in *. assert (Hi : 0 <= i < 3) by lia. replace r with (i * 4 + j) by lia. clear DM.
    unfold valid_edge. destruct (find_edge_transform c (tau x) (i * 4 + j)); [|discriminate]. rewrite G1 by auto. cbn [with_]. rewrite Bne.
    destruct (eouter x i j) eqn:O.
    - apply nf_andthen; [apply nf_true, range_true; lia|]. discriminate.
    - assert (W : cell (wrap x (elo i j))) by (apply wrap_cell; auto).
      pose proof (elo_flag d m n p pa pb pc Hm Hn Hp H2 x i j X Hi MB O) as FL.
      pose proof (eps_ne d m n p pa pb pc Hm Hn Hp H2 _ i W Hi FL) as EN. rewrite <- ne_is3 in EN by auto.
      apply nf_andthen; [apply nf_true, range_true; lia|].
      replace (eps (wrap x (elo i j)) i =? -1) with false by lia. rewrite EO, !offs_get by lia. cbn [with_].
      apply nf_andthen; [apply nf_true; apply andb_true_intro; split; apply range_true; lia|].
      set (ae := eps (wrap x (elo i j)) i) in *. replace (Z.to_nat (4 * (ae + 1) - 4 * ae)) with 4%nat by lia.
      rewrite edge_loop_four; [discriminate|auto|auto|].
      intros j' Hj'. destruct (G2 _ i j' W Hi Hj' FL) as [A1 A2]. exists (tau (wrap (wrap x (elo i j)) (ehi i j'))). split; [exact A1|]. split; [exact A2|].
      assert (W' : cell (wrap (wrap x (elo i j)) (ehi i j'))) by (apply wrap_cell; auto). split.
      + rewrite G1 by auto. rewrite (ehi_flag d m n p pa pb pc Hm Hn Hp H2) by auto.
        rewrite (wrap_back d m n p pc Hm Hn Hp H2 (wrap x (elo i j))); [reflexivity|auto|]. intros k Hk. rewrite Z.add_comm. apply (elo_hi d p pc H2); auto.
      + intros E. subst j'. rewrite (wrap_back d m n p pc Hm Hn Hp H2 x); [reflexivity|auto|]. intros k Hk. apply (elo_hi d p pc H2); auto.
  Qed.

  Lemma brick_corner x r : 0 < nc -> cell x -> 0 <= r < ch -> valid_corner d c (ch * nc) (tau x) r <> Some false.
  Proof.
    intros P X Hr. destruct B as [Bnv Bnt Bne Bnc Bat Bta Bvx Bvs Bttv Bttt Bttf Be Be2 Bc].
    destruct Bc as (EO & _ & XX). destruct (XX P) as (L1 & L2 & L3 & G1 & G2). clear XX Be Be2. pose proof (ch8 d) as C8.
    unfold valid_corner. destruct (find_corner_transform d c (tau x) r); [|discriminate]. rewrite G1 by auto. cbn [with_]. rewrite Bnc.
    destruct (couter x r) eqn:O.
    - apply nf_andthen; [apply nf_true, range_true; lia|]. discriminate.
    - assert (W : cell (wrap x (clo r))) by (apply wrap_cell; auto).
      pose proof (clo_flag d m n p pa pb pc Hm Hn Hp H2 x r X O) as FL.
      pose proof (gam_nc d m n p pa pb pc Hm Hn Hp H2 _ W FL) as EN.
      apply nf_andthen; [apply nf_true, range_true; lia|].
      replace (gam (wrap x (clo r)) =? -1) with false by lia. rewrite EO, !offs_get by lia. cbn [with_].
      apply nf_andthen; [apply nf_true; apply andb_true_intro; split; apply range_true; nia|].
      set (ac := gam (wrap x (clo r))) in *. replace (ch * (ac + 1) - ch * ac) with ch by lia.
      assert (CL : corner_loop d c (tau x) r ac (Z.to_nat ch) (ch * ac) false = Some (Some true)).
      { pose proof (corner_loop_all d c (tau x) ac (ch * ac) r ch ltac:(lia)) as Q. 
        assert (HQ : forall i', 0 <= i' < ch -> exists t', zget (c_ctt c) (ch * ac + (ch - 1 - i')) = Some t' /\ zget (c_ctc c) (ch * ac + (ch - 1 - i')) = Some i' /\
            zget (c_ttc c) (t' * ch + i') = Some ac /\ (i' = r -> t' = tau x)).
        { intros i' Hi'. destruct (G2 _ i' W Hi' FL) as [A1 A2]. fold ac in A1, A2. rewrite (Z.mul_comm ac ch) in A1, A2.
          exists (tau (wrap (wrap x (clo r)) (chi i'))). split; [exact A1|]. split; [exact A2|].
          assert (W' : cell (wrap (wrap x (clo r)) (chi i'))) by (apply wrap_cell; auto). split.
          - rewrite G1 by auto. rewrite (chi_flag d m n p pa pb pc Hm Hn Hp H2) by auto.
            rewrite (wrap_back d m n p pc Hm Hn Hp H2 (wrap x (clo r))); [reflexivity|auto|]. intros k Hk. rewrite Z.add_comm. apply (clo_hi d p pc H2); auto.
          - intros E. subst i'. rewrite (wrap_back d m n p pc Hm Hn Hp H2 x); [reflexivity|auto|]. intros k Hk. apply (clo_hi d p pc H2); auto. }
        specialize (Q HQ (Z.to_nat ch)). rewrite Z2Nat.id in Q by lia. specialize (Q ltac:(lia)). rewrite Z.sub_diag, Z.add_0_r in Q.
        replace (ch <=? r) with false in Q by lia. exact Q. }
      rewrite CL. discriminate.
  Qed.

  Lemma brick_valid : conn_is_valid d c = Some true.
  Proof.
    pose proof brick_not_none as NN. assert (NF : conn_is_valid d c <> Some false).
    2: { destruct (conn_is_valid d c) as [[|]|]; congruence. }
    pose proof brick_face as VF. pose proof brick_edge as VE. pose proof brick_corner as VC.
    destruct B as [Bnv Bnt Bne Bnc Bat Bta Bvx [Lvs _] Bttv Bttt Bttf Be Be2 Bc].
    pose proof ne_nonneg as NE. pose proof (nc_pos d m n p pa pb pc Hm Hn Hp H2) as NC. pose proof (nt_pos m n p Hm Hn Hp) as NT. pose proof (ch8 d) as C8.
    unfold conn_is_valid. rewrite Bne, Bnc, Bnt, Bta, Bat, Bvx. destruct Bttv as (ttv & Ev & Lv & Gv). rewrite Ev.
    apply nf_with. intros num_ett EE. apply nf_with. intros num_ctt EC.
    destruct Bc as (Eco & C0 & C1). rewrite Eco, offs_get in EC by lia. apply some_inj in EC. subst num_ctt.
    assert (D3E : d = D3 -> num_ett = 4 * ne).
    { intros D. destruct (Be D) as (Eeo & _). rewrite D in EE. cbn [is3] in EE. rewrite D in Eeo. rewrite Eeo, <- D, offs_get in EE by lia. apply some_inj in EE. auto. }
    assert (NV : 0 < nv).
    { assert (X0 : cell (0, 0, 0)) by (apply (proj2 (cell_alt d m n p pc H2 (0, 0, 0))); cbn; lia). destruct (Gv (0, 0, 0) 0 X0 ltac:(lia)) as (v & _ & R & _). lia. }
    rewrite Bnv. replace (nv =? 0) with false by lia. apply nf_andthen; [discriminate|]. apply nf_andthen; [apply nf_true; cbn; rewrite andb_false_r; reflexivity|].
    assert (CTT : 0 <= nc) by auto.
    apply nf_andthen; [destruct (is3 d) eqn:I3; [|discriminate]|].
    { assert (D : d = D3) by (clear - I3; destruct d; [discriminate|auto]). rewrite (D3E D). destruct (Be D) as (_ & E0 & E1).
      apply nf_each. intros k Hk. unfold valid_pair. assert (P : 0 < ne) by lia. destruct (E1 P) as (_ & _ & _ & _ & G).
      assert (S : exists y i, cell y /\ 0 <= i < 3 /\ eflag y i = true /\ eps y i = k / 4).
      { apply (eps_onto d m n p pa pb pc Hm Hn Hp H2). rewrite (ne_is d m n p pa pb pc Hm Hn Hp H2), <- ne_is3 by auto. split; [apply Z.div_pos; lia|apply Z.div_lt_upper_bound; lia]. }
      destruct S as (y & i & Y & Hi & FL & EQ). pose proof (Z.div_mod k 4 ltac:(lia)). pose proof (Z.mod_pos_bound k 4 ltac:(lia)).
      destruct (G y i (3 - k mod 4) Y Hi ltac:(lia) FL) as [A1 A2]. replace (4 * eps y i + (3 - (3 - k mod 4))) with k in A1, A2 by lia. rewrite A1, A2. cbn [with_].
      apply nf_andthen; [apply nf_true, range_true, tta, wrap_cell; auto|]. apply nf_true, range_true. lia. }
    apply nf_andthen.
    { apply nf_each. intros k Hk. rewrite Z2Nat.id in Hk by nia. assert (P : 0 < nc) by nia. destruct (C1 P) as (_ & _ & _ & _ & G). unfold valid_pair.
      assert (S : exists y, cell y /\ cflag y = true /\ gam y = k / ch).
      { apply (gam_onto d m n p pa pb pc Hm Hn Hp H2). rewrite (cs_len d m n p pa pb pc Hm Hn Hp H2). split; [apply Z.div_pos; lia|apply Z.div_lt_upper_bound; lia]. }
      destruct S as (y & Y & FL & EQ). pose proof (Z.div_mod k ch ltac:(lia)). pose proof (Z.mod_pos_bound k ch ltac:(lia)).
      destruct (G y (ch - 1 - k mod ch) Y ltac:(lia) FL) as [A1 A2]. replace (gam y * ch + (ch - 1 - (ch - 1 - k mod ch))) with k in A1, A2 by lia. rewrite A1, A2. cbn [with_].
      apply nf_andthen; [apply nf_true, range_true, tta, wrap_cell; auto|]. apply nf_true, range_true. lia. }
    apply nf_andthen.
    { replace (0 <? nv) with true by lia. apply nf_each. intros k Hk. rewrite Z2Nat.id in Hk by nia. cbn [oget].
      destruct (per_tree ch k) as (x & r & X & Hr & Ek); [lia|lia|]. destruct (Gv x r X Hr) as (v & Q & R & _). rewrite Ek, Q. cbn [with_]. apply nf_true, range_true. auto. }
    apply nf_andthen; [discriminate|].
    apply nf_each. intros t Ht. rewrite Z2Nat.id in Ht by lia. destruct (per_tree 1 t) as (x & r & X & Hr & Ek); [lia|lia|]. replace t with (tau x) by lia. clear Ek.
    unfold valid_tree. rewrite Bne, Bnc. apply nf_andthen; [|apply nf_andthen; [|apply nf_andthen]].
    - apply nf_each. intros f Hf. rewrite Z2Nat.id in Hf by (clear; destruct d; cbn; lia). apply VF; auto.
    - destruct (is3 d) eqn:I3; [|discriminate]. assert (D : d = D3) by (clear - I3; destruct d; [discriminate|auto]). destruct (Be D) as (Eeo & _). apply nf_andthen.
      + rewrite Eeo. apply nf_each. intros k Hk. rewrite Z2Nat.id in Hk by lia. unfold valid_offset. rewrite !offs_get by lia. cbn [with_]. apply nf_true. lia.
      + destruct (0 <? ne) eqn:P; [|discriminate]. apply nf_each. intros k Hk. rewrite (D3E D). apply VE; auto; lia.
    - rewrite Eco. apply nf_each. intros k Hk. rewrite Z2Nat.id in Hk by lia. unfold valid_offset. rewrite !offs_get by lia. cbn [with_]. apply nf_true. nia.
    - destruct (0 <? nc) eqn:P; [|discriminate]. apply nf_each. intros k Hk. rewrite Z2Nat.id in Hk by lia. apply VC; auto; lia.
  Qed.
  End Conn.
End Valid.
