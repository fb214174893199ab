(** * p4est_connectivity_complete: edges and corners of the result are accepted *)

From Coq Require Import ZArith List Bool Lia ZifyBool Permutation.
From Verif Require Import Quad Spec Neighbor Transform Partition Conn ConnLemmas ConnBounds Permute PermuteArray ConnComplete ConnCompleteArray ConnCompleteFaces ConnCompleteGroups ConnCompleteValid.
Import ListNotations.
Open Scope Z_scope.

(** the four arrays hold the groups gs of (tree, edge or corner) *)
Record arranged (S nt : Z) (code : Z * Z -> Z) (gs : list (list (Z * Z))) (nm off ts cs : list Z) : Prop := {
  ar_nm : zlen nm = S * nt; ar_off : zlen off = zlen gs + 1; ar_cs : zlen cs = zlen ts;
  ar_first : zget off 0 = Some 0; ar_last : zget off (zlen gs) = Some (zlen ts);
  ar_in : forall j g x, zget gs j = Some g -> In x g -> zget nm (S * fst x + snd x) = Some j;
  ar_out : forall x, 0 <= fst x < nt -> 0 <= snd x < S -> ~ In x (concat gs) -> zget nm (S * fst x + snd x) = Some (-1);
  ar_slice : forall j g, zget gs j = Some g -> exists s, zget off j = Some s /\ zget off (j + 1) = Some (s + zlen g) /\ 0 <= s /\ s + zlen g <= zlen ts /\
    (forall i x, zget g i = Some x -> zget ts (s + i) = Some (fst x) /\ zget cs (s + i) = Some (code x));
  ar_all : forall i, 0 <= i < zlen ts -> exists x, In x (concat gs) /\ zget ts i = Some (fst x) /\ zget cs i = Some (code x) }.

Lemma assemble_arranged S nt code gs : 0 < S -> 0 <= nt -> (forall x, In x (concat gs) -> 0 <= fst x < nt /\ 0 <= snd x < S) -> NoDup (concat gs) ->
  exists nm off ts cs, assemble (S * nt) (map (map (fun x => (S * fst x + snd x, fst x, code x))) gs) = (nm, off, ts, cs) /\ arranged S nt code gs nm off ts cs.
Proof.
  intros HS Hn R N. set (ent := fun x : Z * Z => (S * fst x + snd x, fst x, code x) : entry).
  assert (CM : concat (map (map ent) gs) = map ent (concat gs)) by (symmetry; apply concat_map).
  assert (INJ : forall x y, In x (concat gs) -> 0 <= fst y < nt -> 0 <= snd y < S -> S * fst x + snd x = S * fst y + snd y -> x = y).
  { intros x y Ix Hy1 Hy2 E. destruct (R x Ix) as (A & B). destruct x as [a b], y as [a' b']. cbn [fst snd] in *.
    assert (a = a') by (apply (Z.div_mod_unique S) with (r1 := b) (r2 := b'); lia). subst. f_equal. lia. }
  destruct (assemble_spec (S * nt) (map (map ent) gs)) as (nm & off & ts & cs & E & A1 & A2 & A3 & A4 & A5 & A6 & A7 & A8 & A9 & A10).
  - nia.
  - intros g m Ig Im. apply in_map_iff in Ig as (g0 & <- & Ig). apply in_map_iff in Im as (x & <- & Im).
    destruct (R x) as (B1 & B2); [apply in_concat; eauto|]. unfold eidx, ent. cbn [fst snd]. nia.
  - rewrite CM, map_map. clear -N INJ R. assert (INJ' : forall x y, In x (concat gs) -> In y (concat gs) -> S * fst x + snd x = S * fst y + snd y -> x = y) by (intros x y Ix Iy; destruct (R y Iy); apply INJ; auto).
    clear INJ R. induction N as [|x l NI N IH]; cbn [map]; [constructor|]. constructor.
    + intros I. apply in_map_iff in I as (y & E & I). unfold eidx, ent in E. cbn [fst snd] in E. apply NI. rewrite (INJ' x y); [auto|left; auto|right; auto|auto].
    + apply IH. intros a b Ia Ib. apply INJ'; right; auto.
  - exists nm, off, ts, cs. split; [exact E|]. assert (LM : zlen (map (map ent) gs) = zlen gs) by (unfold zlen; rewrite map_length; auto).
    assert (GM : forall j g, zget gs j = Some g -> zget (map (map ent) gs) j = Some (map ent g)) by (intros j g F; rewrite map_zget, F; auto).
    constructor; auto.
    + lia.
    + rewrite <- LM. auto.
    + intros j g x F I. apply (A8 j (map ent g) (ent x)); [auto|apply in_map; auto].
    + intros x H1 H2 NI. apply A9; [nia|]. intros g m Ig Im F. apply in_map_iff in Ig as (g0 & <- & Ig). apply in_map_iff in Im as (y & <- & Im).
      assert (Iy : In y (concat gs)) by (apply in_concat; eauto). apply NI. rewrite <- (INJ y x); auto.
    + intros j g F. destruct (A10 j _ (GM j g F)) as (s & S1 & S2 & S3 & S4 & S5). exists s.
      assert (LG : zlen (map ent g) = zlen g) by (unfold zlen; rewrite map_length; auto). rewrite LG in *. repeat split; auto.
      * destruct (S5 i (zget_range _ _ _ H)) as (Q & _). rewrite Q, map_zget, H. reflexivity.
      * destruct (S5 i (zget_range _ _ _ H)) as (_ & Q). rewrite Q, map_zget, H. reflexivity.
    + intros i Hi. rewrite A6, A7, CM, !map_map, !map_zget. assert (HL : 0 <= i < zlen (concat gs)) by (rewrite A6, CM in Hi; unfold zlen in *; rewrite !map_length in Hi; auto).
      destruct (zget_some _ _ HL) as (x & F). rewrite F. exists x. split; [eapply zget_in; eauto|]. auto.
Qed.

Section Arranged.
  Variables (S nt : Z) (code : Z * Z -> Z) (gs : list (list (Z * Z))) (nm off ts cs : list Z).
  Hypothesis A : arranged S nt code gs nm off ts cs.
  Lemma ar_number x : In x (concat gs) -> exists j g, zget gs j = Some g /\ In x g /\ zget nm (S * fst x + snd x) = Some j /\ 0 <= j < zlen gs.
  Proof.
    intros I. apply in_concat in I as (g & Ig & Ix). apply zg_ex in Ig as (j & Hj & E). exists j, g. repeat split; auto; try lia. eapply ar_in; eauto.
  Qed.
  Lemma ar_indices : 0 < S -> 0 <= nt -> indices_ok (zlen gs) nm off.
  Proof.
    intros HS Hn. split; [|split].
    - intros E. rewrite (ar_first _ _ _ _ _ _ _ _ A). auto.
    - intros x I. apply zg_ex in I as (i & Hi & E). rewrite (ar_nm _ _ _ _ _ _ _ _ A) in Hi.
      assert (D : i = S * (i / S) + i mod S) by (apply Z.div_mod; lia). pose proof (Z.mod_pos_bound i S HS). assert (0 <= i / S) by (apply Z.div_pos; lia).
      assert (i / S < nt) by (apply Z.div_lt_upper_bound; lia).
      destruct (in_dec (fun a b : Z * Z => ltac:(decide equality; apply Z.eq_dec)) (i / S, i mod S) (concat gs)) as [J|J].
      + destruct (ar_number _ J) as (j & g & _ & _ & F & R). cbn [fst snd] in F. rewrite <- D in F. rewrite E in F. injection F as ->. lia.
      + pose proof (ar_out _ _ _ _ _ _ _ _ A (i / S, i mod S)) as F. cbn [fst snd] in F. rewrite <- D in F. rewrite F in E by (auto; lia). injection E as <-. pose proof (zlen0 gs). lia.
    - intros x E. rewrite (ar_first _ _ _ _ _ _ _ _ A) in E. injection E as <-. lia.
  Qed.
  Lemma ar_offset a : 0 <= a < zlen gs -> valid_offset off a = Some true.
  Proof.
    intros Ha. destruct (zget_some gs a Ha) as (g & E). destruct (ar_slice _ _ _ _ _ _ _ _ A a g E) as (s & S1 & S2 & _).
    unfold valid_offset. rewrite S1, S2. cbn [with_]. f_equal. pose proof (zlen0 g). lia.
  Qed.
  Lemma ar_pair hi : (forall x, In x (concat gs) -> 0 <= fst x < nt /\ 0 <= code x < hi) -> forall i, 0 <= i < zlen ts -> valid_pair ts cs nt hi i = Some true.
  Proof.
    intros R i Hi. destruct (ar_all _ _ _ _ _ _ _ _ A i Hi) as (x & Ix & E1 & E2). destruct (R x Ix) as (R1 & R2). unfold valid_pair. rewrite E1, E2. cbn [with_].
    replace (in_range (fst x) 0 nt) with true by (symmetry; apply range_true; auto). cbn [andthen]. f_equal. apply range_true. auto.
  Qed.
  Lemma ar_combine j g : zget gs j = Some g -> exists s e, zget off j = Some s /\ zget off (j + 1) = Some e /\ Z.to_nat (e - s) = length g /\ 0 <= s /\ e = s + zlen g /\ e <= zlen ts /\
    zslice ts s (length g) = Some (map fst g) /\ zslice cs s (length g) = Some (map code g).
  Proof.
    intros E. destruct (ar_slice _ _ _ _ _ _ _ _ A j g E) as (s & S1 & S2 & S3 & S4 & S5). exists s, (s + zlen g). split; [auto|]. split; [auto|].
    split; [unfold zlen; lia|]. split; [auto|]. split; [auto|]. split; [auto|]. split.
    - replace (length g) with (length (map fst g)) by apply map_length. apply zslice_is; [auto|]. intros i Hi.
      assert (HL : 0 <= i < zlen g) by (unfold zlen in *; rewrite map_length in Hi; auto). destruct (zget_some g i HL) as (x & F). rewrite map_zget, F. apply S5. auto.
    - replace (length g) with (length (map code g)) by apply map_length. apply zslice_is; [auto|]. intros i Hi.
      assert (HL : 0 <= i < zlen g) by (unfold zlen in *; rewrite map_length in Hi; auto). destruct (zget_some g i HL) as (x & F). rewrite map_zget, F. apply S5. auto.
  Qed.
End Arranged.

Lemma combine_maps {A B C} (f : A -> B) (g : A -> C) l : combine (map f l) (map g l) = map (fun x => (f x, g x)) l.
Proof. induction l; cbn; congruence. Qed.

Lemma ecode_rem ttv x : 0 <= snd x < 12 -> 0 <= ecode ttv x < 24 /\ Z.rem (ecode ttv x) 12 = snd x /\
  Z.quot (ecode ttv x) 12 = if nget (everts ttv x) 0 <? nget (everts ttv x) 1 then 0 else 1.
Proof.
  intros H. unfold ecode. destruct (nget (everts ttv x) 0 <? nget (everts ttv x) 1).
  - rewrite Z.add_0_r. split; [lia|]. split; [apply Z.rem_small; lia|apply Z.quot_small; lia].
  - split; [lia|]. rewrite Z.rem_mod_nonneg, Z.quot_div_nonneg by lia. replace (snd x + 12) with (snd x + 1 * 12) by lia. rewrite Z.mod_add, Z.div_add, Z.mod_small, Z.div_small by lia. lia.
Qed.

(** ** Edges *)
Section Edges.
  Variables (c1 : conn) (ttv : list Z).
  Hypothesis AL : allocated D3 c1.
  Hypothesis FV : forall t f, 0 <= t < c_nt c1 -> 0 <= f < 6 -> valid_face D3 c1 t f = Some true.

  Lemma all_edges_in x : In x (all_edges (c_nt c1)) <-> 0 <= fst x < c_nt c1 /\ 0 <= snd x < 12.
  Proof. destruct x. unfold all_edges. rewrite in_prod_iff, !below_in. reflexivity. Qed.
  Lemma groups_in g x : In g (edge_groups ttv (c_nt c1)) -> In x g -> In x (all_edges (c_nt c1)).
  Proof. intros Ig Ix. destruct (edge_groups_spec ttv (c_nt c1)) as (_ & G & _). destruct (G g Ig) as (k & ->). apply filter_In in Ix. tauto. Qed.
  Lemma internal_ok l x : In x (all_edges (c_nt c1)) -> edge_internal c1 l x <> None.
  Proof.
    intros I. apply all_edges_in in I as (Ht & He). unfold edge_internal.
    destruct (edge_distinct_ok c1 (fst x) (fun f Hf => FV (fst x) f Ht Hf) (snd x) He) as (dis & ->). destruct (find_self (fst x) (snd x) l 0). discriminate.
  Qed.
  Lemma real_ok g : In g (edge_groups ttv (c_nt c1)) -> edge_real ttv c1 g <> None.
  Proof. intros Ig. apply some_nonempty_ok. intros x Ix. apply internal_ok. eapply groups_in; eauto. Qed.

  Lemma edges_done : exists gs tte off ts cs, edge_phase D3 ttv c1 = Some (set_edges c1 (zlen gs) tte off ts cs) /\
    ofilter (edge_real ttv c1) (edge_groups ttv (c_nt c1)) = Some gs /\
    (forall x, In x (concat gs) -> 0 <= fst x < c_nt c1 /\ 0 <= snd x < 12) /\ NoDup (concat gs) /\
    arranged 12 (c_nt c1) (ecode ttv) gs tte off ts cs.
  Proof.
    unfold edge_phase. cbn [is3]. pose proof (ofilter_some (edge_real ttv c1) _ real_ok) as OS.
    destruct (ofilter (edge_real ttv c1) (edge_groups ttv (c_nt c1))) as [gs|] eqn:OF; [|congruence].
    assert (R : forall x, In x (concat gs) -> 0 <= fst x < c_nt c1 /\ 0 <= snd x < 12).
    { intros x I. apply in_concat in I as (g & Ig & Ix). apply (ofilter_in _ _ _ OF) in Ig as (Ig & _). apply all_edges_in. eapply groups_in; eauto. }
    assert (N : NoDup (concat gs)) by (eapply ofilter_nodup; [exact OF|]; apply edge_groups_spec).
    destruct (assemble_arranged 12 (c_nt c1) (ecode ttv) gs ltac:(lia) (nt_pos D3 c1 AL) R N) as (tte & off & ts & cs & E & AR).
    exists gs, tte, off, ts, cs.
    change (map (map (eentry ttv)) gs) with (map (map (fun x : Z * Z => (12 * fst x + snd x, fst x, ecode ttv x))) gs). rewrite E. auto.
  Qed.

  Variables (gs : list (list (Z * Z))) (tte off ts cs : list Z).
  Hypothesis GR : forall x, In x (concat gs) -> 0 <= fst x < c_nt c1 /\ 0 <= snd x < 12.
  Hypothesis GN : NoDup (concat gs).
  Hypothesis AR : arranged 12 (c_nt c1) (ecode ttv) gs tte off ts cs.
  Local Notation c2 := (set_edges c1 (zlen gs) tte off ts cs).

  Lemma allocated2 : allocated D3 c2.
  Proof.
    destruct AL as (P1 & P2 & P3 & P4 & P5 & P6 & P7 & P8 & P9 & P10). unfold allocated. cbn [set_edges c_nv c_nt c_ne c_nc c_ttv c_ttt c_ttf c_tte c_eoff c_ett c_ete c_ttc c_coff c_ctt c_ctc].
    pose proof (zlen0 gs). do 7 (split; [auto; lia|]). split; [|split; auto]. intros _. split; [apply (ar_off _ _ _ _ _ _ _ _ AR)|]. intros _.
    split; [rewrite (ar_nm _ _ _ _ _ _ _ _ AR); lia|]. split; [apply (ar_cs _ _ _ _ _ _ _ _ AR)|apply (ar_last _ _ _ _ _ _ _ _ AR)].
  Qed.
  Lemma group_sub j g : zget gs j = Some g -> NoDup g /\ forall x, In x g -> In x (concat gs).
  Proof.
    intros E. split; [|intros x I; apply in_concat; exists g; split; [eapply zget_in; eauto|auto]].
    apply zget_in in E. clear -GN E. induction gs as [|h l IH]; [destruct E|]. cbn [concat] in GN.
    assert (T : NoDup h /\ NoDup (concat l)).
    { clear -GN. induction h as [|x h IHh]; cbn [app] in GN; [split; [constructor|auto]|]. inversion_clear GN. destruct (IHh H0). split; [constructor; [intros I; apply H, in_or_app; auto|auto]|auto]. }
    destruct T as [T1 T2]. destruct E as [<-|E]; auto.
  Qed.

  Lemma edge_nf t e : 0 <= t < c_nt c1 -> 0 <= e < 12 -> valid_edge c2 (zlen ts) t e <> Some false.
  Proof.
    intros Ht He. unfold valid_edge. destruct (find_edge_transform c2 t e); [|discriminate]. cbn [set_edges c_ne c_tte c_eoff].
    apply nf_with. intros ae E. replace (t * 12 + e) with (12 * fst (t, e) + snd (t, e)) in E by (cbn [fst snd]; lia).
    destruct (in_dec (fun a b : Z * Z => ltac:(decide equality; apply Z.eq_dec)) (t, e) (concat gs)) as [J|J].
    - destruct (ar_number _ _ _ _ _ _ _ _ AR _ J) as (j & g & Ej & Ix & F & R). rewrite F in E. injection E as <-.
      replace (in_range j (-1) (zlen gs)) with true by (symmetry; apply range_true; lia). cbn [andthen]. replace (j =? -1) with false by lia.
      destruct (ar_slice _ _ _ _ _ _ _ _ AR j g Ej) as (s & S1 & S2 & S3 & S4 & S5). rewrite S1, S2. cbn [with_].
      assert (LG : 0 < zlen g) by (destruct g; [destruct Ix|unfold zlen; cbn [length]; lia]).
      replace (in_range s 0 (zlen ts) && in_range (s + zlen g) 0 (zlen ts + 1)) with true by (symmetry; apply andb_true_iff; split; apply range_true; lia). cbn [andthen].
      destruct (group_sub j g Ej) as (NG & SG).
      destruct (edge_loop_group c2 t e j (map (eentry ttv) g) s (-1)) as (r & R1 & R2 & R3).
      + intros i y Ey. rewrite map_zget in Ey. destruct (zget g i) as [x|] eqn:Ex; [|discriminate]. cbn [option_map] in Ey. injection Ey as <-.
        destruct (S5 i x Ex) as (Q1 & Q2). unfold etree, ecd, eentry. cbn [fst snd set_edges c_ett c_ete c_tte]. destruct (GR x) as (G1 & G2); [apply SG; eapply zget_in; eauto|].
        destruct (ecode_rem ttv x G2) as (C1 & C2 & _). rewrite C2. repeat split; auto; [|lia].
        replace (fst x * 12 + snd x) with (12 * fst x + snd x) by lia. eapply ar_in; eauto. eapply zget_in; eauto.
      + rewrite map_map. erewrite map_ext_in with (g := fun x => x); [rewrite map_id; auto|]. intros x Ixg. unfold etree, ecd, eentry. cbn [fst snd].
        destruct (ecode_rem ttv x) as (_ & -> & _); [apply GR; auto|]. destruct x; auto.
      + left. auto.
      + rewrite map_length in R1. replace (Z.to_nat (s + zlen g - s)) with (length g) by (unfold zlen; lia). rewrite R1.
        assert (0 <= r); [|intros X; apply some_eq in X; lia]. apply R3. rewrite map_map. apply in_map_iff. exists (t, e). split; [|auto]. unfold etree, ecd, eentry. cbn [fst snd].
        destruct (ecode_rem ttv (t, e)) as (_ & -> & _); [auto|]. auto.
    - rewrite (ar_out _ _ _ _ _ _ _ _ AR (t, e)) in E by auto. injection E as <-.
      replace (in_range (-1) (-1) (zlen gs)) with true by (symmetry; apply range_true; pose proof (zlen0 gs); lia). discriminate.
  Qed.
  Lemma edge_true t e : 0 < zlen gs -> 0 <= t < c_nt c1 -> 0 <= e < 12 -> valid_edge c2 (zlen ts) t e = Some true.
  Proof.
    intros PE Ht He. pose proof (edge_nf t e Ht He) as NF.
    assert (NN : valid_edge c2 (zlen ts) t e <> None).
    { apply edge_in_bounds; auto.
      - apply allocated2.
      - apply (ar_last _ _ _ _ _ _ _ _ AR).
      - apply (ar_pair _ _ _ _ _ _ _ _ AR). intros x I. destruct (GR x I) as (G1 & G2). split; [auto|]. apply ecode_rem. auto.
      - intros f Hf. apply FV; auto.
      - intros a Ha. apply (ar_offset _ _ _ _ _ _ _ _ AR). auto.
      - apply (ar_indices _ _ _ _ _ _ _ _ AR); [lia|]. apply (nt_pos D3 c1 AL). }
    destruct (valid_edge c2 (zlen ts) t e) as [[|]|]; congruence.
  Qed.
End Edges.
