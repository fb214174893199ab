(** * The loop that fills the gaps (lines 1948-2089 of src/p4est_algorithms.c) *)

From Coq Require Import ZArith List Bool Lia ZifyBool Sorting.Sorted Arith.Wf_nat.
From Verif Require Import Quad Spec Interval QuadLemmas CompareLemmas DescLemmas SuccLemmas RegionLemmas SearchLocal Tiles Search Adapt Balance BalanceBasics.
Import ListNotations.
Open Scope Z_scope.

Lemma ss_mid {T} (R : T -> T -> Prop) don x rest : StronglySorted R (don ++ x :: rest) -> forall y, In y rest -> R x y.
Proof.
  induction don as [|z don IH]; cbn [app]; intros S y H.
  - inversion S as [|? ? _ F]. rewrite Forall_forall in F. apply F, H.
  - inversion S; auto.
Qed.

Section F.
  Variable d : dim.
  Variable dom : quad.
  Hypothesis Wd : wf d dom.
  Hypothesis Ld : ql dom < 29.
  Notation inn w q := (qpos d w <= qpos d q /\ qend d q <= qend d w).
  Notation ml := (minlevel dom).

  Lemma ml_pos : 0 < ml <= 29.
  Proof. unfold minlevel. pose proof (wf_level d dom Wd). lia. Qed.

  Lemma raise_spec cid : forall n q, wf d q -> ml <= ql q -> inn dom q -> ql q - ml <= Z.of_nat n ->
    let r := raise_loop d dom n cid q in
    wf d r /\ ml <= ql r <= ql q /\ inn r q /\ inn dom r /\ (cid = 0 -> qpos d r = qpos d q) /\
    (cid = children d - 1 -> qend d r = qend d q) /\ (ql r = ml \/ child_id d r <> cid).
  Proof.
    pose proof ml_pos as M. unfold minlevel in *.
    induction n as [|n IH]; intros q W L I F; cbv zeta; cbn [raise_loop].
    - split; [exact W|]. lia.
    - unfold minlevel. destruct (ql q >? ql dom + 1) eqn:E1; [|cbn [andb]; split; [exact W|]; lia].
      destruct (child_id d q =? cid) eqn:E2; cbn [andb]; [|split; [exact W|]; lia].
      destruct (parent_wf d q W ltac:(lia)) as (Wp & Lp & _). pose proof (parent_inn d q W ltac:(lia)) as Ip.
      pose proof (inn_parent d dom q Wd W I ltac:(lia)) as Idp.
      destruct (IH (parent d q) Wp ltac:(lia) Idp ltac:(lia)) as (A & B & C & D & Ez & El & G).
      split; [exact A|]. split; [lia|]. split; [lia|]. split; [exact D|]. split; [|split; [|exact G]].
      + intros H. rewrite Ez by exact H. apply parent_first; auto; lia.
      + intros H. rewrite El by exact H. apply parent_last; auto; lia.
  Qed.

  Lemma climb_spec : forall n q, wf d q -> ml - 1 <= ql q -> inn dom q -> ql q - ml + 1 <= Z.of_nat n ->
    let (c, p) := climb_loop d dom n q (child_id d q) in
    wf d c /\ ml - 1 <= ql c <= ql q /\ inn c q /\ inn dom c /\ p = child_id d c /\ qend d c = qend d q /\ (ml <= ql c -> p < children d - 1).
  Proof.
    pose proof ml_pos as M. unfold minlevel in *.
    induction n as [|n IH]; intros q W L I F; cbn [climb_loop].
    - split; [exact W|]. lia.
    - unfold minlevel. destruct (ql q >=? ql dom + 1) eqn:E1; [|cbn [andb]; split; [exact W|]; lia].
      destruct (child_id d q =? children d - 1) eqn:E2; cbn [andb].
      2:{ pose proof (child_id_range d q W). split; [exact W|]. lia. }
      destruct (parent_wf d q W ltac:(lia)) as (Wp & Lp & _). pose proof (parent_inn d q W ltac:(lia)) as Ip.
      pose proof (inn_parent d dom q Wd W I ltac:(lia)) as Idp.
      specialize (IH (parent d q) Wp ltac:(lia) Idp ltac:(lia)). destruct (climb_loop _ _ _ _ _) as (c, p). destruct IH as (A & B & C & D & Ep & El & G).
      split; [exact A|]. split; [lia|]. split; [lia|]. split; [exact D|]. split; [exact Ep|]. split; [|exact G].
      rewrite El. apply parent_last; auto; lia.
  Qed.

  Lemma equal_or_inside t q : wf d t -> wf d q -> (negb (is_equal d t q) && negb (is_ancestor d t q) = false <-> inn t q).
  Proof.
    intros Wt Wq. pose proof (is_equal_eq d t q Wt Wq) as E. pose proof (anc_iff d t q Wt Wq) as A. split.
    - intros H. destruct (is_equal d t q); [|destruct (is_ancestor d t q); [|discriminate]]; [rewrite (proj1 E eq_refl); lia|apply A; reflexivity].
    - intros I. destruct (Z_lt_dec (ql t) (ql q)) as [L|L].
      + rewrite (proj2 A) by auto. apply andb_false_r.
      + rewrite (proj2 E) by (apply (inn_eq d); auto; lia). reflexivity.
  Qed.

  Variables (L : list quad) (A E : Z) (last_desc sent : option quad).
  Hypothesis HL : forall q, In q L -> wf d q /\ inn dom q /\ ml <= ql q /\ qpos d q < E.
  Hypothesis SORT : StronglySorted (le d) L.
  Hypothesis HE : match last_desc with
    | None => E = qend d dom /\ sent = None
    | Some l => wf d l /\ ql l = 29 /\ E = qend d l /\ inn dom l /\
        match sent with None => E = qend d dom | Some s => wf d s /\ ql s = 29 /\ qpos d s = E /\ E < qend d dom end
    end.

  Definition just (w : quad) : Prop := ql w = ml \/ qpos d (parent d w) < A \/ E < qend d (parent d w) \/
    exists q, In q L /\ inn (parent d w) q /\ ql (parent d w) < ql q.
  Definition free (w : quad) : Prop := forall q, In q L -> ~ (inn w q /\ ql w < ql q).

  Definition finv (t : quad) (pid : Z) (rest out : list quad) : Prop :=
    wf d t /\ ml <= ql t /\ inn dom t /\ pid = child_id d t /\ qpos d t <= E /\ tiles d A (qpos d t) out /\ Forall just out /\ Forall free out /\ just t /\
    exists don, L = don ++ rest /\ (forall c, In c don -> le d c t) /\ (forall q, In q rest -> le d t q).

  Lemma E_dom : E <= qend d dom.
  Proof. destruct last_desc as [l|]; [|lia]. destruct HE as (_ & _ & -> & I & _). lia. Qed.

  Lemma past_spec t : wf d t -> inn dom t -> qpos d t <= E ->
    (match last_desc with None => false | Some l => compare d t l >? 0 end = true <-> qpos d t = E).
  Proof.
    intros Wt I P. pose proof (size_pos d t Wt). destruct last_desc as [l|]; [|destruct HE as (-> & _); split; [discriminate|lia]].
    destruct HE as (Wl & Ll & El & Il & _). pose proof (compare_gt d t l Wt Wl) as G. pose proof (wf_level d t Wt). pose proof (size_pos d l Wl).
    assert (GT : (compare d t l >? 0) = true <-> ~ le d t l) by (rewrite <- G; lia). rewrite GT. unfold le.
    destruct (nested d t l Wt Wl ltac:(lia)) as [X|[X|X]]; lia.
  Qed.

  Lemma le_trans a b c : le d a b -> le d b c -> le d a c.
  Proof. unfold le. lia. Qed.

  Lemma just_up t c : wf d t -> wf d c -> 0 < ql t -> ml <= ql c -> inn c t -> just t -> just c.
  Proof.
    intros Wt Wc Lt Lc I J. pose proof ml_pos. destruct (Z.eq_dec (ql c) ml) as [Ec|NEc]; [left; exact Ec|].
    assert (LL : ql c <= ql t) by (apply (inn_level d); auto).
    destruct (parent_wf d c Wc ltac:(lia)) as (Wpc & Lpc & _). destruct (parent_wf d t Wt ltac:(lia)) as (Wpt & Lpt & _).
    pose proof (parent_inn d c Wc ltac:(lia)) as I1. pose proof (parent_inn d t Wt ltac:(lia)) as I2. pose proof (size_pos d t Wt).
    assert (IP : inn (parent d c) (parent d t)) by (apply (nested_pt d (parent d c) (parent d t) (qpos d t)); auto; lia).
    destruct J as [J|[J|[J|(q & Hq & Iq & Lq)]]].
    - exfalso. lia.
    - right. left. lia.
    - right. right. left. lia.
    - right. right. right. exists q. split; [exact Hq|]. split; [lia|]. lia.
  Qed.

  Lemma just_parent t c : parent d t = parent d c -> ql t = ql c -> just t -> just c.
  Proof. unfold just. intros -> ->. auto. Qed.

  Lemma fill_run : forall N t pid rest out, Z.to_nat (E - qpos d t) = N -> finv t pid rest out ->
    exists n, forall fuel, (n <= fuel)%nat -> exists out', fill_loop d dom fuel last_desc sent t pid rest out = Some out' /\
      tiles d A E out' /\ Forall just out' /\ Forall free out'.
  Proof.
    pose proof ml_pos as M. pose proof E_dom as ED.
    induction N as [N IHN] using lt_wf_ind. intros t pid rest. revert t pid.
    remember (length rest) as R eqn:ER. revert rest ER. induction R as [R IHR] using lt_wf_ind. intros rest ER t pid.
    remember (Z.to_nat (29 - ql t)) as V eqn:EV. revert t pid EV. induction V as [V IHV] using lt_wf_ind. intros t pid EV out EN INV.
    pose proof INV as (Wt & Lt & It & Ep & Pt & TI & FJ & FF & JT & don & EL & HD & HR). pose proof (wf_level d t Wt) as Lt'. pose proof (size_pos d t Wt) as St.
    set (past := match last_desc with None => false | Some l => compare d t l >? 0 end).
    pose proof (past_spec t Wt It Pt) as PS. fold past in PS.
    set (qo := match rest with x :: _ => Some x | [] => sent end).
    set (before := match qo with None => true | Some q => negb (is_equal d t q) && negb (is_ancestor d t q) end).
    assert (UN : forall f, fill_loop d dom (S f) last_desc sent t pid rest out =
      if before then if past then Some out else
          let (t', pid') := climb d dom t pid in
          if ql t' <? ml then Some (out ++ [t]) else fill_loop d dom f last_desc sent (sibling d t' (pid' + 1)) (pid' + 1) rest (out ++ [t])
      else if (ql t <? ml) || past then Some out
      else match qo with None => None | Some q =>
          if (qx q =? qx t) && (qy q =? qy t) && (negb (is3 d) || (qz q =? qz t)) then
            fill_loop d dom f last_desc sent (mkq (qx t) (qy t) (qz t) (ql q)) (if ql q >? ql t then 0 else pid) (tl rest) out
          else let a := nearest_common_ancestor d (first_descendant d t QMAXLEVEL) q in
            fill_loop d dom f last_desc sent (mkq (qx a) (qy a) (qz a) (ql a + 1)) 0 rest out end) by reflexivity.
    clearbody past. destruct past.
    { exists 1%nat. intros [|f] Hf; [lia|]. exists out. rewrite UN. rewrite orb_true_r.
      assert (X : (if before then Some out else Some out) = Some out) by (destruct before; reflexivity). split; [exact X|].
      rewrite (proj1 PS eq_refl) in TI. auto. }
    assert (PE : qpos d t < E). { destruct (Z.eq_dec (qpos d t) E) as [X|X]; [apply PS in X; discriminate|lia]. } clear PS.
    assert (HS : forall q, qo = Some q -> wf d q /\ le d t q /\ qpos d q <= E /\ (rest = [] -> qpos d q = E)).
    { unfold qo. intros q Hq. destruct rest as [|x rest'].
      - rewrite Hq in HE. destruct last_desc as [l|]; [|destruct HE; discriminate]. destruct HE as (_ & _ & _ & _ & Ws & _ & Ps & _). split; [exact Ws|]. split; [left; lia|]. lia.
      - injection Hq as <-. assert (Hin : In x L) by (rewrite EL; apply in_or_app; right; left; reflexivity). destruct (HL x Hin) as (Wx & _ & _ & Px).
        split; [exact Wx|]. split; [apply HR; left; reflexivity|]. split; [lia|discriminate]. }
    destruct before eqn:EB.
    - (* push *)
      assert (BE : qend d t <= E /\ forall q, In q rest -> qend d t <= qpos d q).
      { assert (Q : match qo with None => qend d t <= E | Some q => qend d t <= qpos d q end).
        { unfold before in EB. destruct qo as [q|] eqn:Eq.
          - destruct (HS q eq_refl) as (Wq & Lq & _). assert (NI : ~ inn t q) by (intros I; apply equal_or_inside in I; auto; congruence).
            pose proof (size_pos d q Wq). unfold le in Lq. destruct (Z_le_dec (ql t) (ql q)) as [X|X].
            + destruct (nested d t q Wt Wq X) as [Y|[Y|Y]]; [tauto|lia|lia].
            + destruct (nested d q t Wq Wt ltac:(lia)) as [Y|[Y|Y]]; lia.
          - unfold qo in Eq. destruct rest; [|discriminate]. destruct last_desc as [l|]; [|lia]. destruct HE as (_ & _ & _ & _ & HE'). rewrite Eq in HE'. lia. }
        unfold qo in Q. destruct rest as [|x rest'].
        - split; [|intros q []]. destruct sent as [s|]; [|exact Q]. destruct last_desc as [l|]; [|destruct HE; discriminate]. destruct HE as (_ & _ & _ & _ & _ & _ & Ps & _). lia.
        - assert (Hin : In x L) by (rewrite EL; apply in_or_app; right; left; reflexivity). destruct (HL x Hin) as (_ & _ & _ & Px). split; [lia|].
          intros q [<-|Hq]; [exact Q|]. rewrite EL in SORT. pose proof (ss_mid (le d) _ _ _ SORT q Hq) as FA. unfold le in FA. lia. }
      destruct BE as (BE & BR).
      assert (TI' : tiles d A (qend d t) (out ++ [t])). { eapply tiles_app; [exact TI|]. cbn [tiles]. auto. }
      assert (FJ' : Forall just (out ++ [t])) by (apply Forall_app; split; [exact FJ|constructor; [exact JT|constructor]]).
      assert (FF' : Forall free (out ++ [t])).
      { apply Forall_app; split; [exact FF|]. constructor; [|constructor]. intros q Hq (I & LQ). rewrite EL in Hq. apply in_app_or in Hq. destruct Hq as [Hq|Hq].
        - specialize (HD q Hq). unfold le in HD. lia.
        - specialize (BR q Hq). assert (wf d q) by (apply HL; rewrite EL; apply in_or_app; auto). pose proof (size_pos d q H). lia. }
      pose proof (climb_spec (Z.to_nat (ql t - ml + 1)) t Wt ltac:(lia) It ltac:(lia)) as CS. rewrite <- Ep in CS. fold (climb d dom t pid) in CS.
      destruct (climb d dom t pid) as (c, p). destruct CS as (Wc & Lc & Ic & Idc & Epc & Eec & Lpc).
      destruct (ql c <? ml) eqn:EC.
      { exists 1%nat. intros [|f] Hf; [lia|]. exists (out ++ [t]). rewrite UN. split; [reflexivity|].
        assert (X : qend d t = E). { assert (DC : dom = c) by (apply (inn_eq d); auto; unfold minlevel in *; lia). rewrite <- Eec. assert (qend d c = qend d dom) by congruence. lia. }
        rewrite X in TI'. auto. }
      assert (LC : ml <= ql c) by lia. specialize (Lpc LC). rewrite Epc in Lpc.
      destruct (sibling_next d c Wc ltac:(lia) Lpc) as (Ws & Ls & Ps & Cs & Qs).
      assert (Is : inn dom (sibling d c (child_id d c + 1))).
      { pose proof (inn_parent d dom c Wd Wc Idc ltac:(unfold minlevel in *; lia)) as X. pose proof (parent_inn d _ Ws ltac:(lia)) as Y. rewrite Ps in Y. lia. }
      set (s := sibling d c (child_id d c + 1)) in *.
      destruct (IHN (Z.to_nat (E - qpos d s)) ltac:(lia) s (p + 1) rest (out ++ [t]) eq_refl) as (n & Hn).
      { split; [exact Ws|]. split; [lia|]. split; [exact Is|]. split; [rewrite Cs; lia|]. split; [lia|]. split; [rewrite Qs, Eec; exact TI'|].
        split; [exact FJ'|]. split; [exact FF'|]. split.
        - apply (just_parent c s); auto. apply (just_up t c); auto; lia.
        - exists don. split; [exact EL|]. split.
          + intros x Hx. apply (le_trans x t s); [apply HD; exact Hx|]. left. lia.
          + intros q Hq. specialize (BR q Hq). unfold le. destruct (Z.eq_dec (qpos d q) (qpos d s)) as [X|X]; [|left; lia]. right. split; [lia|].
            assert (Wq : wf d q) by (apply HL; rewrite EL; apply in_or_app; auto).
            destruct (Z_le_dec (ql s) (ql q)) as [Y|Y]; [exact Y|exfalso].
            assert (I : inn q s) by (apply (nested_pt d q s (qpos d s)); auto; pose proof (size_pos d q Wq); pose proof (size_pos d s Ws); lia).
            pose proof (inn_parent d q s Wq Ws I ltac:(lia)) as IP. pose proof (parent_inn d s Ws ltac:(lia)).
            assert (ZZ : child_id d s = 0) by (apply parent_first; auto; lia). pose proof (child_id_range d c Wc). lia. }
      exists (S n). intros [|f] Hf; [lia|]. rewrite UN. unfold s in Hn. rewrite <- Epc in Hn. apply Hn. lia.
    - (* q is in t *)
      unfold before in EB. destruct qo as [q|] eqn:Eq; [|discriminate]. destruct (HS q eq_refl) as (Wq & Lq & Pq & Rq). pose proof (wf_level d q Wq) as Lq'.
      apply equal_or_inside in EB; auto. pose proof (same_coords d q t Wq Wt) as SC.
      assert (EX : (ql t <? ml) || false = false) by lia.
      destruct ((qx q =? qx t) && (qy q =? qy t) && (negb (is3 d) || (qz q =? qz t))) eqn:ES.
      + assert (ES2 := proj1 SC eq_refl). clear ES. rename ES2 into ES. assert (NR : rest <> []) by (intros X; specialize (Rq X); lia).
        unfold qo in Eq. destruct rest as [|x rest']; [congruence|]. injection Eq as ->. cbn [tl] in UN.
        assert (Hin : In q L) by (rewrite EL; apply in_or_app; right; left; reflexivity). destruct (HL q Hin) as (_ & Iq & Mq & _).
        assert (LL : ql t <= ql q) by (apply (inn_level d); auto).
        destruct (down d t (ql q) Wt ltac:(lia)) as (Wn & Ln & Pn). set (nt := mkq (qx t) (qy t) (qz t) (ql q)) in *.
        assert (EQ : nt = q) by (apply (quad_eq d); auto; lia).
        assert (CH : (if ql q >? ql t then 0 else pid) = child_id d nt).
        { destruct (ql q >? ql t) eqn:X; [symmetry; apply parent_first; auto; [lia|]|].
          - pose proof (parent_inn d nt Wn ltac:(lia)). assert (I : inn t nt) by (rewrite EQ; lia). pose proof (inn_parent d t nt Wt Wn I ltac:(lia)). lia.
          - rewrite Ep. f_equal. apply (quad_eq d); auto; lia. }
        destruct (IHR (length rest') ltac:(rewrite ER; cbn; lia) rest' eq_refl nt (if ql q >? ql t then 0 else pid) out ltac:(lia)) as (n & Hn).
        { split; [exact Wn|]. split; [lia|]. split; [rewrite EQ; exact Iq|]. split; [exact CH|]. split; [lia|]. split; [rewrite Pn; exact TI|]. split; [exact FJ|]. split; [exact FF|]. split.
          - destruct (Z.eq_dec (ql q) (ql t)) as [X|X].
            + assert (nt = t) as -> by (apply (quad_eq d); auto; lia). exact JT.
            + right. right. right. exists q. split; [exact Hin|]. rewrite EQ. pose proof (parent_inn d q Wq ltac:(lia)). destruct (parent_wf d q Wq ltac:(lia)) as (_ & LP & _). lia.
          - exists (don ++ [q]). split; [rewrite <- app_assoc; exact EL|]. split.
            + intros c Hc. apply in_app_or in Hc. destruct Hc as [Hc|[<-|[]]]; [apply (le_trans c t nt); [apply HD; exact Hc|]; right; lia|]. rewrite EQ. right; lia.
            + intros r Hr. rewrite EQ. rewrite EL in SORT. exact (ss_mid (le d) _ _ _ SORT r Hr). }
        exists (S n). intros [|f] Hf; [lia|]. rewrite UN, EX. apply Hn. lia.
      + assert (NE : qpos d t <> qpos d q) by (intros X; symmetry in X; apply SC in X; discriminate).
        destruct (nca_after d t q Wt Wq NE EB) as (Ws & Ps & Ls & PA & Wa & Ia & La & Es & Ita & Cs). cbv zeta in *.
        set (a := nearest_common_ancestor d (first_descendant d t 29) q) in *. set (s := mkq (qx a) (qy a) (qz a) (ql a + 1)) in *.
        pose proof (parent_inn d s Ws ltac:(lia)) as IPs. rewrite PA in IPs. pose proof (size_pos d q Wq). pose proof (wf_level d s Ws).
        destruct (IHV (Z.to_nat (29 - ql s)) ltac:(lia) s 0 eq_refl out ltac:(lia)) as (n & Hn).
        { split; [exact Ws|]. split; [lia|]. split; [lia|]. split; [lia|]. split; [lia|]. split; [rewrite Ps; exact TI|]. split; [exact FJ|]. split; [exact FF|]. split.
          - unfold just. rewrite PA. destruct rest as [|x rest'].
            + specialize (Rq eq_refl). right. right. left. lia.
            + unfold qo in Eq. injection Eq as ->. right. right. right. exists q. split; [rewrite EL; apply in_or_app; right; left; reflexivity|]. auto.
          - exists don. split; [exact EL|]. split.
            + intros c Hc. apply (le_trans c t s); [apply HD; exact Hc|]. right; lia.
            + intros r Hr. left. assert (LE : le d q r).
              { unfold qo in Eq. destruct rest as [|x rest']; [destruct Hr|]. injection Eq as ->. destruct Hr as [<-|Hr]; [right; lia|]. rewrite EL in SORT. exact (ss_mid (le d) _ _ _ SORT r Hr). }
              unfold le in LE. pose proof (size_pos d s Ws). lia. }
        exists (S n). intros [|f] Hf; [lia|]. rewrite UN, EX. cbv zeta. change QMAXLEVEL with 29. apply Hn. lia.
  Qed.
End F.
