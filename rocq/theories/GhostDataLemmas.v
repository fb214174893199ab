(** * Lemmas on the exchange of data for the ghost layer *)

From Coq Require Import ZArith List Bool Lia Arith ZifyBool Sorting.Permutation.
From Verif Require Import Quad Partition PartLemmas Conn ConnLemmas Ghost GhostData PropertiesGhost PropertiesGhostExchange PropertiesGhostFind.
Import ListNotations.
Open Scope Z_scope.

Definition steps (po : list Z) (P : Z) : Prop := forall p, 0 <= p < P -> exists a e, zget po p = Some a /\ zget po (p + 1) = Some e /\ 0 <= a <= e.

Lemma zget_tail {A} (x : A) l i : 0 <= i -> zget (x :: l) (i + 1) = zget l i.
Proof. intros H. rewrite zget_cons by exact H. reflexivity. Qed.

Lemma windows_get po P x offs : po = x :: offs -> steps po P -> P + 1 <= zlen po ->
  forall p a e, 0 <= p < P -> zget po p = Some a -> zget po (p + 1) = Some e -> zget (windows x offs) p = Some (a, e - a).
Proof.
  revert po P x. induction offs as [|y offs IH]; intros po P x -> ST L p a e Hp Ea Ee; [unfold zlen in L; cbn in L; lia|].
  destruct (ST 0 ltac:(lia)) as (a0 & e0 & E0 & E1 & R0). cbn in E0. injection E0 as <-. rewrite zget_tail in E1 by lia. cbn in E1. injection E1 as <-.
  assert (EW : windows x (y :: offs) = (x, y - x) :: windows y offs).
  { cbn [windows]. destruct (0 <? y - x) eqn:C; [reflexivity|]. assert (y = x) by lia. subst y. rewrite Z.sub_diag. reflexivity. }
  rewrite EW. destruct (Z.eq_dec p 0) as [->|NZ].
  - cbn in Ea. injection Ea as <-. rewrite zget_tail in Ee by lia. cbn in Ee. injection Ee as <-. reflexivity.
  - replace p with (p - 1 + 1) in Ea by lia. replace (p + 1) with (p - 1 + 1 + 1) in Ee by lia. rewrite zget_tail in Ea, Ee by lia. replace p with (p - 1 + 1) by lia. rewrite zget_tail by lia.
    apply (IH (y :: offs) (P - 1) y eq_refl); auto; [|unfold zlen in *; cbn [length] in *; lia|lia].
    intros u Hu. destruct (ST (u + 1) ltac:(lia)) as (a1 & e1 & A1 & A2 & A3). rewrite zget_tail in A1, A2 by lia. exists a1, e1. auto.
Qed.

Lemma part_slice {A} (l : list A) a e : 0 <= a -> e <= zlen l -> part l a (e - a) = Some (slice l a e).
Proof. intros H1 H2. unfold part. replace ((0 <=? a) && (a + (e - a) <=? zlen l)) with true by lia. reflexivity. Qed.
Lemma slice_len {A} (l : list A) a e : 0 <= a <= e -> e <= zlen l -> length (slice l a e) = Z.to_nat (e - a).
Proof. intros H1 H2. unfold slice, zlen in *. rewrite firstn_length, skipn_length. lia. Qed.

Lemma filter_le {A} (f : A -> bool) l : (length (filter f l) <= length l)%nat.
Proof. induction l as [|x l IH]; [apply le_n|]. cbn [filter]. destruct (f x); cbn [length]; lia. Qed.
Lemma filter_all {A} (f : A -> bool) l : length (filter f l) = length l -> filter f l = l.
Proof.
  induction l as [|x l IH]; [reflexivity|]. cbn [filter]. destruct (f x); cbn [length]; intros H; [f_equal; apply IH; lia|]. pose proof (filter_le f l). lia.
Qed.

Lemma F2_length {A B} (R : A -> B -> Prop) l m : Forall2 R l m -> length l = length m.
Proof. intros F. induction F; cbn; congruence. Qed.

Section One.
  Context {A : Type}.
  Variables (minl maxl : Z).
  Definition sel (g : gq) : bool := if all_levels minl maxl then true else in_levels minl maxl g.

  Lemma sel_all l : all_levels minl maxl = true -> filter sel l = l.
  Proof. intros H. unfold sel. rewrite H. induction l; [reflexivity|]. cbn [filter]. f_equal. assumption. Qed.
  Lemma sel_lev l : all_levels minl maxl = false -> filter sel l = filter (in_levels minl maxl) l.
  Proof. intros H. unfold sel. rewrite H. reflexivity. Qed.

  (** the value sent for a mirror *)
  Definition value (mirrors : list gq) (md : list A) (g : gq) (x : A) : Prop := exists i, zget mirrors i = Some g /\ zget md i = Some x.

  Lemma pack_spec mirrors md ix b : zlen md = zlen mirrors -> Forall2 (fun i g => zget mirrors i = Some g) ix b ->
    exists msg, pack md ix = Some msg /\ Forall2 (value mirrors md) b msg.
  Proof.
    intros L F. induction F as [|i g ix b Hg F IH]; [exists []; split; [reflexivity|constructor]|]. destruct IH as (msg & E & FM).
    assert (X : exists x, zget md i = Some x). { pose proof (zget_range _ _ _ Hg). rewrite zget_nth by lia. destruct (nth_error md (Z.to_nat i)) as [x|] eqn:EX; [eauto|]. apply nth_error_None in EX. unfold zlen in *. lia. }
    destruct X as (x & Ex). exists (x :: msg). cbn [pack]. rewrite Ex, E. split; [reflexivity|]. constructor; [exists i; auto|exact FM].
  Qed.
  Lemma pack_levels_spec mirrors md ix b : zlen md = zlen mirrors -> Forall2 (fun i g => zget mirrors i = Some g) ix b ->
    exists msg, pack_levels minl maxl mirrors md ix = Some msg /\ Forall2 (value mirrors md) (filter (in_levels minl maxl) b) msg.
  Proof.
    intros L F. induction F as [|i g ix b Hg F IH]; [exists []; split; [reflexivity|constructor]|]. destruct IH as (msg & E & FM). cbn [pack_levels filter]. rewrite Hg, E.
    assert (X : exists x, zget md i = Some x). { pose proof (zget_range _ _ _ Hg). rewrite zget_nth by lia. destruct (nth_error md (Z.to_nat i)) as [x|] eqn:EX; [eauto|]. apply nth_error_None in EX. unfold zlen in *. lia. }
    destruct X as (x & Ex). rewrite Ex. destruct (in_levels minl maxl g); [|exists msg; auto]. exists (x :: msg). split; [reflexivity|]. constructor; [exists i; auto|exact FM].
  Qed.

  Lemma send_spec (s : gsides) (md : list A) P q a e b : steps (s_pmo s) P -> P + 1 <= zlen (s_pmo s) -> zget (s_pmo s) 0 = Some 0 ->
    zlen md = zlen (s_mirrors s) -> 0 <= q < P -> zget (s_pmo s) q = Some a -> zget (s_pmo s) (q + 1) = Some e -> e <= zlen (s_pm s) ->
    Forall2 (fun i g => zget (s_mirrors s) i = Some g) (slice (s_pm s) a e) b ->
    exists msg, send_to minl maxl s md q = Some msg /\ Forall2 (value (s_mirrors s) md) (filter sel b) msg.
  Proof.
    intros ST LP P0 LM Hq Ea Ee He F. unfold send_to. destruct (s_pmo s) as [|x offs] eqn:EP; [unfold zlen in LP; cbn in LP; lia|].
    cbn in P0. injection P0 as ->. rewrite (windows_get (0 :: offs) P 0 offs eq_refl ST LP q a e Hq Ea Ee).
    destruct (ST q Hq) as (a' & e' & Ea' & Ee' & R). rewrite Ea in Ea'. injection Ea' as <-. rewrite part_slice by lia.
    destruct (all_levels minl maxl) eqn:AL; [rewrite (sel_all b AL); apply pack_spec; assumption|rewrite (sel_lev b AL); apply pack_levels_spec; assumption].
  Qed.

  Variables (s : gsides) (P : Z).
  Let n := zlen (s_ghosts s).
  Hypothesis ST : steps (s_po s) P.
  Hypothesis LP : P + 1 <= zlen (s_po s).
  Hypothesis P0 : zget (s_po s) 0 = Some 0.
  Hypothesis PN : zget (s_po s) P = Some n.

  Lemma post_spec q a e : 0 <= q < P -> zget (s_po s) q = Some a -> zget (s_po s) (q + 1) = Some e ->
    0 <= a <= e /\ e <= n /\ post_from minl maxl s q = Some (a, e - a, zlen (filter sel (slice (s_ghosts s) a e))).
  Proof.
    intros Hq Ea Ee. destruct (ST q Hq) as (a' & e' & Ea' & Ee' & R). rewrite Ea in Ea'. injection Ea' as <-. rewrite Ee in Ee'. injection Ee' as <-. split; [exact R|].
    assert (He : e <= n) by (apply (offsets_le (s_po s) P n PN ST (q + 1) e); [lia|exact Ee]). split; [exact He|].
    unfold post_from. destruct (s_po s) as [|x offs] eqn:EP; [unfold zlen in LP; cbn in LP; lia|]. cbn in P0. injection P0 as ->. rewrite (windows_get (0 :: offs) P 0 offs eq_refl ST LP q a e Hq Ea Ee).
    destruct (all_levels minl maxl) eqn:AL.
    - rewrite (sel_all _ AL). unfold zlen. rewrite slice_len by (fold n; lia). do 2 f_equal. lia.
    - rewrite part_slice by (fold n; lia). rewrite (sel_lev _ AL). reflexivity.
  Qed.

  Lemma unpack_spec (V : gq -> A -> Prop) gs : forall old msg, all_levels minl maxl = false -> length old = length gs -> Forall2 V (filter sel gs) msg ->
    exists new, unpack minl maxl gs old msg = Some new /\ length new = length gs /\
      forall k g, nth_error gs k = Some g -> if sel g then exists x, nth_error new k = Some x /\ V g x else nth_error new k = nth_error old k.
  Proof.
    induction gs as [|g gs IH]; intros old msg AL L F.
    - destruct old; [|discriminate]. exists []. split; [reflexivity|]. split; [reflexivity|]. intros k g E. destruct k; discriminate.
    - destruct old as [|x old]; [discriminate|]. cbn [unpack]. cbn [filter] in F. injection L as L.
      assert (SG : sel g = in_levels minl maxl g) by (unfold sel; rewrite AL; reflexivity). rewrite SG in F. destruct (in_levels minl maxl g) eqn:IL.
      + inversion F as [|g' y l' msg' Vy F' E1 E2]; subst. destruct (IH old msg' AL L F') as (new & E & LN & K). rewrite E. exists (y :: new). split; [reflexivity|]. split; [cbn; lia|].
        intros [|k] g' Eg; cbn [nth_error] in *; [injection Eg as <-; rewrite SG; exists y; auto|apply K; exact Eg].
      + destruct (IH old msg AL L F) as (new & E & LN & K). rewrite E. exists (x :: new). split; [reflexivity|]. split; [cbn; lia|].
        intros [|k] g' Eg; cbn [nth_error] in *; [injection Eg as <-; rewrite SG; reflexivity|apply K; exact Eg].
  Qed.

  Lemma put_spec (gd new : list A) a e : 0 <= a <= e -> e <= zlen gd -> length new = Z.to_nat (e - a) ->
    zlen (put gd a (e - a) new) = zlen gd /\
    forall i, zget (put gd a (e - a) new) i = if (a <=? i) && (i <? e) then nth_error new (Z.to_nat (i - a)) else zget gd i.
  Proof.
    intros R He L. unfold put. replace (a + (e - a)) with e by lia. unfold zlen in *. split; [rewrite !app_length, firstn_length, skipn_length; lia|].
    intros i. destruct (Z.lt_ge_cases i 0) as [N|N]; [unfold zget; replace ((a <=? i) && (i <? e)) with false by lia; destruct (i <? 0) eqn:X; [reflexivity|lia]|]. rewrite !zget_nth by lia.
    destruct (Z.lt_ge_cases i a) as [H1|H1].
    - replace ((a <=? i) && (i <? e)) with false by lia. rewrite nth_error_app1 by (rewrite firstn_length; lia). apply nth_firstn. lia.
    - rewrite nth_error_app2 by (rewrite firstn_length; lia). rewrite firstn_length, Nat.min_l by lia. destruct (Z.lt_ge_cases i e) as [H2|H2].
      + replace ((a <=? i) && (i <? e)) with true by lia. rewrite nth_error_app1 by lia. f_equal. lia.
      + replace ((a <=? i) && (i <? e)) with false by lia. rewrite nth_error_app2 by lia. rewrite nth_skipn. f_equal. lia.
  Qed.

  (** completing the receive from q *)
  Lemma complete_spec (V : gq -> A -> Prop) q a e (msg gd : list A) : 0 <= q < P -> zget (s_po s) q = Some a -> zget (s_po s) (q + 1) = Some e ->
    zlen gd = n -> Forall2 V (filter sel (slice (s_ghosts s) a e)) msg ->
    exists gd', complete minl maxl s q msg gd = Some gd' /\ zlen gd' = n /\
      forall i g, zget (s_ghosts s) i = Some g ->
        if (a <=? i) && (i <? e) && sel g then exists x, zget gd' i = Some x /\ V g x else zget gd' i = zget gd i.
  Proof.
    intros Hq Ea Ee LG F. destruct (post_spec q a e Hq Ea Ee) as (R & He & EP). unfold complete. rewrite EP.
    assert (LM : zlen msg = zlen (filter sel (slice (s_ghosts s) a e))) by (unfold zlen; rewrite (F2_length _ _ _ F); reflexivity). rewrite LM, Z.eqb_refl. cbn [negb].
    pose proof (slice_len (s_ghosts s) a e R He) as SL. pose proof (slice_len gd a e R ltac:(lia)) as SG.
    assert (FIN : forall new, length new = length (slice (s_ghosts s) a e) ->
       (forall k g, nth_error (slice (s_ghosts s) a e) k = Some g -> if sel g then exists x, nth_error new k = Some x /\ V g x else nth_error new k = nth_error (slice gd a e) k) ->
       zlen (put gd a (e - a) new) = n /\ forall i g, zget (s_ghosts s) i = Some g ->
        if (a <=? i) && (i <? e) && sel g then exists x, zget (put gd a (e - a) new) i = Some x /\ V g x else zget (put gd a (e - a) new) i = zget gd i).
    { intros new L K. destruct (put_spec gd new a e R ltac:(lia) ltac:(lia)) as (LPut & PG). split; [lia|]. intros i g Ei. rewrite PG. destruct ((a <=? i) && (i <? e)) eqn:W; [|reflexivity]. cbn [andb].
      assert (Ri : a <= i < e) by lia. pose proof (slice_in (s_ghosts s) a e i g ltac:(lia) Ri Ei) as Si. specialize (K _ _ Si). destruct (sel g); [exact K|]. rewrite K.
      assert (X : exists x, zget gd i = Some x). { rewrite zget_nth by lia. destruct (nth_error gd (Z.to_nat i)) as [x|] eqn:EX; [eauto|]. apply nth_error_None in EX. unfold zlen in *. lia. }
      destruct X as (x & Ex). rewrite Ex. apply (slice_in gd a e i x ltac:(lia) Ri Ex). }
    destruct (zlen (filter sel (slice (s_ghosts s) a e)) =? e - a) eqn:C.
    - rewrite part_slice by lia. eexists. split; [reflexivity|]. assert (FA : filter sel (slice (s_ghosts s) a e) = slice (s_ghosts s) a e) by (apply filter_all; unfold zlen in C; lia). rewrite FA in F.
      apply FIN; [symmetry; apply (F2_length _ _ _ F)|]. intros k g Ek.
      assert (SG' : sel g = true). { assert (I : In g (filter sel (slice (s_ghosts s) a e))) by (rewrite FA; eapply nth_error_In; exact Ek). apply filter_In in I. apply I. }
      rewrite SG'. clear - F Ek. revert k Ek. induction F as [|g' x l msg Vx F IH]; intros k Ek; [destruct k; discriminate|]. destruct k as [|k]; cbn [nth_error] in *; [injection Ek as ->; exists x; auto|apply IH; exact Ek].
    - destruct (all_levels minl maxl) eqn:AL. { rewrite (sel_all _ AL) in C. unfold zlen in C. lia. }
      rewrite Ea, Ee, !part_slice by lia. destruct (unpack_spec V (slice (s_ghosts s) a e) (slice gd a e) msg AL ltac:(lia) F) as (new & E & LN & K). rewrite E. eexists. split; [reflexivity|]. apply FIN; assumption.
  Qed.

  (** completing all receives in any order *)
  Lemma complete_all_spec (V : Z -> gq -> A -> Prop) msgs order : NoDup order ->
    (forall q, In q order -> 0 <= q < P /\ exists msg, msgs q = Some msg /\ forall a e, zget (s_po s) q = Some a -> zget (s_po s) (q + 1) = Some e -> Forall2 (V q) (filter sel (slice (s_ghosts s) a e)) msg) ->
    forall gd, zlen gd = n -> exists gd', complete_all minl maxl s msgs order gd = Some gd' /\ zlen gd' = n /\
      forall i g q a e, zget (s_ghosts s) i = Some g -> 0 <= q < P -> zget (s_po s) q = Some a -> zget (s_po s) (q + 1) = Some e -> a <= i < e ->
        (In q order -> sel g = true -> exists x, zget gd' i = Some x /\ V q g x) /\ (~ In q order \/ sel g = false -> zget gd' i = zget gd i).
  Proof.
    induction order as [|q order IH]; intros ND H gd LG.
    - exists gd. split; [reflexivity|]. split; [exact LG|]. intros. split; [intros []|reflexivity].
    - inversion ND as [|q' order' NI ND']; subst. destruct (H q (or_introl eq_refl)) as (Hq & msg & EM & F). destruct (ST q Hq) as (a & e & Ea & Ee & R). specialize (F a e Ea Ee).
      destruct (complete_spec (V q) q a e msg gd Hq Ea Ee LG F) as (gd1 & E1 & L1 & K1). destruct (IH ND' (fun q' I => H q' (or_intror I)) gd1 L1) as (gd2 & E2 & L2 & K2).
      exists gd2. cbn [complete_all]. rewrite EM, E1. split; [exact E2|]. split; [exact L2|].
      intros i g p a' e' Ei Hp Ea' Ee' Ri. specialize (K1 i g Ei). specialize (K2 i g p a' e' Ei Hp Ea' Ee' Ri).
      assert (PQ : (a <=? i) && (i <? e) = true <-> p = q).
      { split; [|intros ->; rewrite Ea in Ea'; rewrite Ee in Ee'; injection Ea' as <-; injection Ee' as <-; lia]. intros W.
        assert (CH : forall u v x y, 0 <= u -> u < v -> v <= P -> zget (s_po s) (u + 1) = Some x -> zget (s_po s) v = Some y -> x <= y).
        { intros u v x0 y0 Hu Hv Hv' Ex0 Ey0. destruct (Z.eq_dec (u + 1) v) as [EV|NE]; [rewrite EV, Ey0 in Ex0; injection Ex0 as <-; lia|]. apply (offsets_le (s_po s) v y0) with (p := u + 1); auto; [|lia]. intros w Hw. apply ST. lia. }
        destruct (Z.lt_trichotomy p q) as [G|[G|G]]; [|exact G|]; exfalso; [pose proof (CH p q e' a ltac:(lia) G ltac:(lia) Ee' Ea)|pose proof (CH q p e a' ltac:(lia) G ltac:(lia) Ee Ea')]; lia. }
      destruct (Z.eq_dec p q) as [->|NE].
      + rewrite (proj2 PQ eq_refl) in K1. cbn [andb] in K1. split.
        * intros _ SG. rewrite SG in K1. destruct K1 as (x & Ex & Vx). exists x. split; [|exact Vx]. rewrite <- Ex. apply K2. left. exact NI.
        * intros [N|N]; [exfalso; apply N; left; reflexivity|]. rewrite N in K1. rewrite <- K1. apply K2. right. exact N.
      + destruct ((a <=? i) && (i <? e)) eqn:W; [exfalso; apply NE; apply PQ; reflexivity|]. cbn [andb] in K1. split.
        * intros [I|I] SG; [congruence|]. apply K2; assumption.
        * intros [N|N]; rewrite <- K1; apply K2; [left; intros I; apply N; right; exact I|right; exact N].
  Qed.
End One.
