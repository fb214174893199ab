(** * The calls of one run of p4est_reorder_recursion *)

From Coq Require Import ZArith List Bool Lia Arith Sorting.Sorted ZifyBool FinFun.
From Verif Require Import Quad Spec Morton Interval QuadLemmas CompareLemmas DescLemmas SuccLemmas
  Tree TreeLemmas Search SearchLemmas SearchLocal Reorder ReorderSpec ReorderLemmas.
Import ListNotations.
Open Scope Z_scope.

Lemma filter_and {A} (f g : A -> bool) l : filter f (filter g l) = filter (fun x => g x && f x) l.
Proof. induction l as [|x l IH]; [reflexivity|]. cbn [filter]. destruct (g x); cbn [filter andb]; [destruct (f x); rewrite IH; reflexivity|exact IH]. Qed.
Lemma filter_none {A} (f : A -> bool) l : (forall x, In x l -> f x = false) -> filter f l = [].
Proof. induction l as [|x l IH]; intros H; [reflexivity|]. cbn [filter]. rewrite (H x (or_introl eq_refl)). apply IH. intros y I. apply H. right. exact I. Qed.
Lemma f2_in_l {A B} (R : A -> B -> Prop) l m : Forall2 R l m -> forall x, In x l -> exists y, In y m /\ R x y.
Proof. induction 1 as [|a c l m H F IH]; intros x I; [destruct I|]. destruct I as [<-|I]; [exists c; split; [left; reflexivity|exact H]|]. destruct (IH x I) as (y & J & K). exists y. split; [right; exact J|exact K]. Qed.
Lemma f2_in_r {A B} (R : A -> B -> Prop) l m : Forall2 R l m -> forall y, In y m -> exists x, In x l /\ R x y.
Proof. induction 1 as [|a c l m H F IH]; intros y I; [destruct I|]. destruct I as [<-|I]; [exists a; split; [left; reflexivity|exact H]|]. destruct (IH y I) as (x & J & K). exists x. split; [right; exact J|exact K]. Qed.

Lemma f2_len {A B} (R : A -> B -> Prop) l m : Forall2 R l m -> length l = length m.
Proof. induction 1; cbn [length]; congruence. Qed.

Section Run.
  Variable d : dim.
  Variable Pt : Type.
  Variable skip : bool.
  Variable ord : option (list (Z * quad) -> list Z -> list Z * bool).
  Variable P : Z -> quad -> Z -> bool.
  Variable PP : Z -> quad -> Z -> Pt -> bool.
  Variable pts : option (list Pt).
  Variables (t off : Z) (L : list quad).
  Hypothesis LW : Forall (wf d) L.
  Hypothesis LS : linear d L.
  Hypothesis OK : order_ok ord.
  Notation SN := (snode d skip L).
  Notation NUM := (numof off L).
  Notation ATQ := (atq Pt).
  Notation CALLED := (called d Pt skip ord P PP t off L).
  Notation ACTIVE := (active d Pt skip PP t off L).
  Notation PASSED := (passed d skip ord P t off L).
  Notation KEPT := (kept d ord t L).
  Notation CARE := (calls_are d Pt skip ord P PP t off L).
  Notation NEST := (ReorderSpec.nested d Pt ord P t L).
  Notation BELOW := (below d Pt ord P t L).
  Notation EVIN := (ev_in d Pt t).
  Notation REC := (log_rrec skip ord P PP pts).

  (** *** numbers *)
  Lemma before_irrefl x : wf d x -> ~ before d x x.
  Proof. intros Wx K. pose proof (size_pos d x Wx). unfold before in K. lia. Qed.
  Lemma index_at : forall l k x, StronglySorted (before d) l -> Forall (wf d) l -> nth_error l k = Some x -> index_of x l = Some k.
  Proof.
    induction l as [|a l IH]; intros [|k] x S F E; cbn [nth_error] in E; try discriminate.
    - injection E as ->. cbn [index_of]. destruct (quad_dec x x); [reflexivity|congruence].
    - inversion S as [|? ? S' F']; subst. inversion F as [|? ? Wa Fl]; subst. cbn [index_of]. pose proof (nth_error_In _ _ E) as I.
      destruct (quad_dec x a) as [->|NE]; [|rewrite (IH k x S' Fl E); reflexivity].
      exfalso. rewrite Forall_forall in F'. apply (before_irrefl a Wa). apply F'. exact I.
  Qed.
  Lemma index_none : forall l x, ~ In x l -> index_of x l = None.
  Proof. induction l as [|a l IH]; intros x NI; [reflexivity|]. cbn [index_of]. destruct (quad_dec x a) as [->|NE]; [destruct NI; left; reflexivity|]. rewrite IH; [reflexivity|]. intros I. apply NI. right. exact I. Qed.
  Lemma num_at k x : nth_error L k = Some x -> NUM x = off + Z.of_nat k.
  Proof. intros E. unfold numof. rewrite (index_at L k x LS LW E). reflexivity. Qed.
  Lemma num_none x : ~ In x L -> NUM x = -1.
  Proof. intros H. unfold numof. rewrite (index_none L x H). reflexivity. Qed.

  (** *** putting the calls together *)
  Definition childlike (b c q : quad) : Prop :=
    wf d c /\ within d b c /\ ~ within d c b /\ within d c q /\ forall m, SN m -> within d b m -> m <> b -> within d m q -> within d c m.
  Definition fps (b : quad) (ps : option (list Pt)) : option (list Pt) := option_map (filter (PP t b (NUM b))) ps.
  Definition bspec (b : quad) (ps : option (list Pt)) (T : list (rcall Pt)) : Prop :=
    (forall q, q <> b -> SN q -> within d b q -> KEPT b q -> ps <> Some [] ->
       exists c, childlike b c q /\ (CALLED c ps q -> exists l, filter (ATQ q) T = calls Pt P t off L q l /\
         match ps with None => l = [] | Some l0 => exists f, l = filter f l0 /\ forall p, In p l0 -> (f p = true <-> ACTIVE c q p) end)) /\
    (forall q e, In e T -> ATQ q e = true -> q <> b /\ KEPT b q /\ exists c, childlike b c q /\ CALLED c ps q) /\
    BELOW b T /\ Forall (EVIN b) T.

  Section Node.
    Variables b0 b : quad.
    Hypothesis W0 : wf d b0.
    Hypothesis Wb : wf d b.
    Hypothesis B0 : within d b0 b.
    Hypothesis Sb : SN b.
    Hypothesis HB : forall q, SN q -> within d b0 q -> within d b q.

    Lemma n_passed c q : q <> b -> within d b q -> childlike b c q -> (PASSED b0 q <-> P t b (NUM b) = true /\ KEPT b q /\ PASSED c q).
    Proof.
      intros NE A (Wc & Bc & NC & Cq & HC). split.
      - intros H. destruct (H b Sb B0 A (fun E => NE (eq_sym E))) as (H1 & H2). split; [exact H1|]. split; [exact H2|]. intros m Sm Cm Mq Nm. apply H; auto. eapply within_trans; [exact B0|]. eapply within_trans; eauto.
      - intros (H1 & H2 & H3) m Sm Bm Mq Nm. destruct (quad_dec m b) as [->|Nb]; [split; assumption|]. apply H3; auto.
    Qed.
    Lemma n_active c q p : q <> b -> within d b q -> childlike b c q -> (ACTIVE b0 q p <-> PP t b (NUM b) p = true /\ ACTIVE c q p).
    Proof.
      intros NE A (Wc & Bc & NC & Cq & HC). split.
      - intros H. split; [apply (H b Sb B0 A); auto|]. intros m Sm Cm Mq Nm. apply H; auto. eapply within_trans; [exact B0|]. eapply within_trans; eauto.
      - intros (H1 & H3) m Sm Bm Mq Nm. destruct (quad_dec m b) as [->|Nb]; [assumption|]. apply H3; auto.
    Qed.
    Lemma n_called c ps q : q <> b -> within d b q -> childlike b c q -> (CALLED b0 ps q <-> P t b (NUM b) = true /\ KEPT b q /\ CALLED c (fps b ps) q).
    Proof.
      intros NE A CL. pose proof (n_passed c q NE A CL) as HP. pose proof (fun p => n_active c q p NE A CL) as HA. destruct CL as (Wc & Bc & NC & Cq & HC). unfold called. split.
      - intros (H1 & H2 & H3 & H4). apply HP in H3. destruct H3 as (K1 & K2 & K3). split; [exact K1|]. split; [exact K2|]. split; [exact H1|]. split; [exact Cq|]. split; [exact K3|].
        intros l E. unfold fps in E. destruct ps as [l0|]; [|discriminate]. injection E as <-. destruct (H4 l0 eq_refl) as (p & I & AC). apply HA in AC. exists p. rewrite filter_In. tauto.
      - intros (K1 & K2 & H1 & H2 & K3 & H4). split; [exact H1|]. split; [eapply within_trans; eauto|]. split; [apply HP; auto|]. intros l ->. destruct (H4 _ eq_refl) as (p & I & AC). apply filter_In in I. exists p. split; [tauto|]. apply HA. tauto.
    Qed.
    Lemma n_self ps : ps <> Some [] -> CALLED b0 ps b.
    Proof.
      intros NP. assert (V : forall m, SN m -> within d b0 m -> within d m b -> m <> b -> False).
      { intros m Sm Bm Mb N. apply N. apply (within_anti d); auto. apply Sm. }
      split; [exact Sb|]. split; [exact B0|]. split; [intros m ? ? ? ?; exfalso; eauto|]. intros l ->. destruct l as [|p l]; [congruence|]. exists p. split; [left; reflexivity|]. intros m ? ? ? ?. exfalso; eauto.
    Qed.
    Lemma n_self_active p : ACTIVE b0 b p.
    Proof. intros m Sm Bm Mb N. exfalso. apply N. apply (within_anti d); auto. apply Sm. Qed.

    Definition psl (ps : option (list Pt)) : list Pt := match ps with None => [] | Some l => l end.
    Lemma at_self r n n' (l : list Pt) : filter (ATQ r) (map (Point t r n) l ++ [Post t r n']) = map (Point t r n) l ++ [Post t r n'].
    Proof. induction l as [|p l IH]; cbn [map app filter atq]; (destruct (quad_dec r r); [|congruence]); [reflexivity|]. rewrite IH. reflexivity. Qed.
    Lemma at_other q r n (l : list Pt) : q <> r -> filter (ATQ q) (map (Point t r n) l) = [].
    Proof. intros NE. apply filter_none. intros e I. apply in_map_iff in I. destruct I as (p & <- & _). cbn [atq]. destruct (quad_dec q r); [contradiction|reflexivity]. Qed.

    Lemma assemble ps TB : ps <> Some [] -> (P t b (NUM b) = true -> bspec b (fps b ps) TB) ->
      let T := Pre t b (NUM b) :: if P t b (NUM b) then map (Point t b (NUM b)) (psl ps) ++ TB ++ [Post t b (NUM b)] else [] in
      (forall q, CARE b0 ps q T) /\ NEST T /\ Forall (EVIN b0) T.
    Proof.
      intros NP HBS T. unfold T. clear T. destruct (P t b (NUM b)) eqn:EP.
      - specialize (HBS eq_refl). destruct HBS as (S1 & S2 & S3 & S4). split; [|split].
        + intros q. destruct (quad_dec q b) as [->|NE].
          * split; [|intros; apply n_self; exact NP]. intros _. exists (psl ps). split.
            { cbn [filter atq]. destruct (quad_dec b b); [|congruence]. unfold calls. rewrite EP. f_equal. rewrite !filter_app, (filter_none _ TB).
              - cbn [app]. rewrite <- filter_app. apply at_self.
              - intros ev I. destruct (ATQ b ev) eqn:E; [|reflexivity]. destruct (S2 b ev I E) as (K & _). congruence. }
            destruct ps as [l0|]; [|reflexivity]. cbn [psl]. exists (fun _ => true). split; [clear; induction l0 as [|x l IH]; [reflexivity|cbn [filter]; rewrite <- IH; reflexivity]|]. intros p _. split; [intros _; apply n_self_active|reflexivity].
          * split.
            { intros HC. assert (A : within d b q) by (apply HB; apply HC). assert (KK : KEPT b q). { destruct HC as (H1 & H2 & H3 & _). apply (H3 b Sb B0 A). auto. }
              assert (NF : fps b ps <> Some []). { unfold fps. destruct ps as [l0|]; [|discriminate]. cbn [option_map]. intros E. injection E as E. destruct HC as (_ & _ & _ & H4). destruct (H4 l0 eq_refl) as (p & I & AC). assert (J : In p (filter (PP t b (NUM b)) l0)); [|rewrite E in J; destruct J]. apply filter_In. split; [exact I|]. apply (AC b Sb B0 A). auto. }
              destruct (S1 q NE (proj1 HC) A KK NF) as (c & CL & HH). apply (n_called c ps q NE A CL) in HC. destruct HC as (_ & _ & HC). destruct (HH HC) as (l & E & EL). exists l. split.
              - cbn [filter atq]. destruct (quad_dec q b); [contradiction|]. rewrite !filter_app, (at_other q b _ _ NE). cbn [app filter atq]. destruct (quad_dec q b); [contradiction|]. rewrite app_nil_r. exact E.
              - unfold fps in EL. destruct ps as [l0|]; [|exact EL]. cbn [option_map] in EL. destruct EL as (f & -> & Hf). exists (fun p => PP t b (NUM b) p && f p). split; [apply filter_and|]. intros p I. rewrite (n_active c q p NE A CL), andb_true_iff.
                destruct (PP t b (NUM b) p) eqn:EPP; [|intuition congruence]. rewrite <- (Hf p); [tauto|]. apply filter_In. auto. }
            intros e I E. destruct I as [<-|I]; [cbn [atq] in E; destruct (quad_dec q b); [contradiction|discriminate]|]. rewrite !in_app_iff in I. destruct I as [I|[I|[<-|[]]]].
            { apply in_map_iff in I. destruct I as (p & <- & _). cbn [atq] in E. destruct (quad_dec q b); [contradiction|discriminate]. }
            { destruct (S2 q e I E) as (_ & KK & c & CL & HC). apply (n_called c ps q NE); auto. destruct CL as (_ & B1 & _ & B2 & _). eapply within_trans; eauto. }
            cbn [atq] in E. destruct (quad_dec q b); [contradiction|discriminate].
        + apply nested_yes; [exact EP|exact S3].
        + constructor; [split; [reflexivity|exact B0]|]. rewrite !Forall_app. split; [apply Forall_forall; intros e I; apply in_map_iff in I; destruct I as (p & <- & _); split; [reflexivity|exact B0]|]. split; [|constructor; [split; [reflexivity|exact B0]|constructor]].
          revert S4. apply Forall_impl. intros e. destruct e; cbn [ev_in]; try (intros (K1 & K); split; [exact K1|eapply within_trans; eauto]). apply Forall_impl. intros c (K1 & K). split; [exact K1|eapply within_trans; eauto].
      - split; [|split].
        + intros q. destruct (quad_dec q b) as [->|NE].
          * split; [|intros; apply n_self; exact NP]. intros _. exists (psl ps). split; [unfold calls; rewrite EP; cbn [filter atq]; destruct (quad_dec b b); [reflexivity|congruence]|].
            destruct ps as [l0|]; [|reflexivity]. cbn [psl]. exists (fun _ => true). split; [clear; induction l0 as [|x l IH]; [reflexivity|cbn [filter]; rewrite <- IH; reflexivity]|]. intros p _. split; [intros _; apply n_self_active|reflexivity].
          * split.
            { intros (H1 & H2 & H3 & _). destruct (H3 b Sb B0 (HB q H1 H2)) as (K & _); [auto|]. congruence. }
            intros e [<-|[]] E. cbn [atq] in E. destruct (quad_dec q b); [contradiction|discriminate].
        + apply nested_no. exact EP.
        + constructor; [split; [reflexivity|exact B0]|constructor].
    Qed.
  End Node.

  (** *** the points *)
  Lemma loop_log pl q n same : forall act l s ch, Forall2 (fun i p => nth_error pl i = Some p) act l ->
    exists ch', points_loop (list (rcall Pt)) Pt REC t pl s q n same act ch = Some (s ++ map (Point t q n) l, ch ++ ch') /\
      (same = true -> ch' = []) /\ (same = false -> Forall2 (fun i p => nth_error pl i = Some p) ch' (filter (PP t q n) l)).
  Proof.
    induction act as [|i act IH]; intros l s ch F; inversion F as [|? p ? l' E F' E1]; subst.
    - exists []. cbn [points_loop map filter]. rewrite !app_nil_r. repeat split; auto.
    - cbn [points_loop]. rewrite E. change (r_point REC) with (Some (fun (s : list (rcall Pt)) t q n p => (s ++ [Point t q n p], PP t q n p))). cbv iota beta.
      destruct (IH l' (s ++ [Point t q n p]) (if PP t q n p && negb same then ch ++ [i] else ch) F') as (ch' & R & H1 & H2).
      exists (if PP t q n p && negb same then i :: ch' else ch'). split.
      { rewrite R. cbn [map]. rewrite <- app_assoc. cbn [app]. destruct (PP t q n p && negb same); [rewrite <- app_assoc|]; reflexivity. }
      split.
      + intros ->. rewrite andb_false_r. auto.
      + intros ->. rewrite andb_true_r. cbn [filter]. destruct (PP t q n p); [constructor; auto|auto].
  Qed.
  Definition rrel (actives : option (list nat)) (ps : option (list Pt)) : Prop :=
    match pts with
    | None => ps = None
    | Some pl => exists l, ps = Some l /\ Forall2 (fun i p => nth_error pl i = Some p) (match actives with None => seq 0 (length pl) | Some a => a end) l
    end.

  (** *** below a quadrant *)
  Lemma child_up b i : wf d b -> ql b < 29 -> 0 <= i < children d -> wf d (child d b i) /\ within d b (child d b i) /\ ~ within d (child d b i) b.
  Proof.
    intros Wb Lb Hi. destruct (child_wf d b i Wb Lb Hi) as (Wc & Lc & _). split; [exact Wc|]. split; [apply child_within; auto|]. intros K. pose proof (within_level d _ _ Wc Wb K). lia.
  Qed.
  Lemma child_like b i q : wf d b -> ql b < 29 -> 0 <= i < children d -> wf d q -> within d (child d b i) q -> childlike b (child d b i) q.
  Proof.
    intros Wb Lb Hi Wq A. destruct (child_up b i Wb Lb Hi) as (H1 & H2 & H3). split; [exact H1|]. split; [exact H2|]. split; [exact H3|]. split; [exact A|].
    intros m Sm Bm N Mq. apply (sn_between d L skip b Wb m q i); auto.
  Qed.
  Lemma bs_leaf b ps : In b L -> bspec b ps [].
  Proof.
    intros I. split; [|split; [intros q e []|split; [constructor|constructor]]]. intros q NE Sq A _ _. exfalso. apply NE. apply (sn_leaf d L LW LS skip); auto.
  Qed.
  Lemma bs_stop b : bspec b (Some []) [].
  Proof. split; [intros; congruence|]. split; [intros q e []|split; constructor]. Qed.
  Lemma ev_up b c e : within d b c -> EVIN c e -> EVIN b e.
  Proof. intros A. destruct e; cbn [ev_in]; try (intros (K1 & K); split; [exact K1|eapply within_trans; eauto]). apply Forall_impl. intros x (K1 & K). split; [exact K1|eapply within_trans; eauto]. Qed.
  Lemma ev_at c q e : EVIN c e -> ATQ q e = true -> within d c q.
  Proof. destruct e; cbn [ev_in atq]; try (destruct (quad_dec q _) as [->|]; [tauto|discriminate]). discriminate. Qed.

  (** a single leaf below a larger quadrant *)
  Lemma bs_one b i ps T : wf d b -> ql b < 29 -> 0 <= i < children d -> (forall x, In x L -> within d b x -> within d (child d b i) x) -> ~ many d L b ->
    (forall q, CARE (child d b i) ps q T) -> NEST T -> Forall (EVIN (child d b i)) T -> bspec b ps T.
  Proof.
    intros Wb Lb Hi HX NM HC HN HE. destruct (child_up b i Wb Lb Hi) as (H1 & H2 & H3). rewrite Forall_forall in HE. split; [|split; [|split]].
    - intros q NE Sq A _ _. exists (child d b i). assert (AQ : within d (child d b i) q).
      { destruct (sn_child d L skip b Wb q Sq A NE) as (_ & j & Hj & B). destruct Sq as (Wq & (x & Ix & Ax) & _). replace i with j; [exact B|]. pose proof (lwf d L LW x Ix).
        apply (child_unique d b x); auto; [eapply within_trans; eauto|]. apply HX; [exact Ix|]. eapply within_trans; eauto. }
      split; [apply child_like; auto; apply Sq|]. apply HC.
    - intros q e I E. pose proof (ev_at _ _ _ (HE e I) E) as AQ. split; [intros ->; contradiction|]. split; [intros K; contradiction|]. pose proof (proj2 (HC q) e I E) as CQ. exists (child d b i). split; [apply child_like; auto; apply CQ|exact CQ].
    - apply (below_one d Pt ord P t L b i T NM HN). apply Forall_forall. exact HE.
    - apply Forall_forall. intros e I. apply (ev_up _ _ _ H2). apply HE. exact I.
  Qed.

  (** several children *)
  Lemma concat_at b q i : wf d b -> ql b < 29 -> wf d q -> within d (child d b i) q -> forall idx Ts, NoDup idx -> In i idx -> (forall j, In j idx -> 0 <= j < children d) ->
    forall R : Z -> list (rcall Pt) -> Prop, Forall2 (fun j T => R j T /\ Forall (EVIN (child d b j)) T) idx Ts -> exists T, R i T /\ filter (ATQ q) (concat Ts) = filter (ATQ q) T.
  Proof.
    intros Wb Lb Wq A. assert (NO : forall idx Ts, (forall j, In j idx -> 0 <= j < children d /\ j <> i) -> 0 <= i < children d -> forall R : Z -> list (rcall Pt) -> Prop, Forall2 (fun j T => R j T /\ Forall (EVIN (child d b j)) T) idx Ts -> filter (ATQ q) (concat Ts) = []).
    { induction idx as [|j idx IH]; intros Ts HJ Hi R F; inversion F as [|? T ? Ts' (H1 & H2) F']; subst; [reflexivity|]. cbn [concat]. rewrite filter_app, (IH Ts' (fun k I => HJ k (or_intror I)) Hi R F'), app_nil_r. destruct (HJ j (or_introl eq_refl)) as (HJ1 & HJ2).
      apply filter_none. intros e I. destruct (ATQ q e) eqn:E; [|reflexivity]. rewrite Forall_forall in H2. pose proof (ev_at _ _ _ (H2 e I) E) as B. exfalso. apply HJ2. apply (child_unique d b q); auto. }
    induction idx as [|j idx IH]; intros Ts ND I HJ R F; [destruct I|]. inversion F as [|? T ? Ts' (H1 & H2) F']; subst. inversion ND as [|? ? NI ND']; subst. cbn [concat]. rewrite filter_app. destruct (Z.eq_dec j i) as [->|NE].
    - exists T. split; [exact H1|]. rewrite (NO idx Ts') with (R := R); [apply app_nil_r| |apply HJ; left; reflexivity|exact F']. intros k Ik. split; [apply HJ; right; exact Ik|]. intros ->. contradiction.
    - destruct I as [->|I]; [congruence|]. destruct (IH Ts' ND' I (fun k Ik => HJ k (or_intror Ik)) R F') as (T' & HR & ET). exists T'. split; [exact HR|]. rewrite ET, (filter_none _ T); [reflexivity|].
      intros e Ie. destruct (ATQ q e) eqn:E; [|reflexivity]. rewrite Forall_forall in H2. pose proof (ev_at _ _ _ (H2 e Ie) E) as B. exfalso. apply NE. apply (child_unique d b q); auto; apply HJ; [left; reflexivity|right; exact I].
  Qed.
  Definition chosen (b : quad) : list Z :=
    match ord with None => kids d L b | Some K => if snd (K (siblings d t b) (kids d L b)) then fst (K (siblings d t b) (kids d L b)) else [] end.
  Definition told (b : quad) : list (rcall Pt) := match ord with None => [] | Some _ => [Order (siblings d t b) (kids d L b)] end.
  Lemma chosen_ok b : NoDup (chosen b) /\ forall i, In i (chosen b) -> In i (kids d L b).
  Proof.
    unfold chosen. pose proof (kids_nodup d L b) as ND. destruct ord as [K|] eqn:EO; [|split; auto]. destruct (OK K (siblings d t b) (kids d L b) eq_refl ND) as (H1 & H2). destruct (snd _); [split; [exact H1|exact H2]|split; [constructor|intros i []]].
  Qed.
  Lemma told_at q b : filter (ATQ q) (told b) = [].
  Proof. unfold told. destruct ord; reflexivity. Qed.
  Lemma bs_many b ps Ts : wf d b -> ql b < 29 -> many d L b ->
    Forall2 (fun i T => ((forall q, CARE (child d b i) ps q T) /\ NEST T) /\ Forall (EVIN (child d b i)) T) (chosen b) Ts -> bspec b ps (told b ++ concat Ts).
  Proof.
    intros Wb Lb MB F. destruct (chosen_ok b) as (ND & HK). assert (HI : forall i, In i (chosen b) -> 0 <= i < children d) by (intros i I; apply (kids_in d L b i); apply HK; exact I).
    assert (CK : forall q, KEPT b q <-> (forall K, ord = Some K -> exists i, In i (chosen b) /\ within d (child d b i) q)).
    { intros q. unfold kept, chosen. split.
      - intros H K EO. destruct (H MB K EO) as (H1 & i & H2 & H3). rewrite EO, H1. exists i. auto.
      - intros H _ K EO. specialize (H K EO). rewrite EO in H. destruct H as (i & H1 & H2). destruct (snd (K (siblings d t b) (kids d L b))); [|destruct H1]. split; [reflexivity|]. exists i. auto. }
    split; [|split; [|split]].
    - intros q NE Sq A KQ _. assert (EI : exists i, In i (chosen b) /\ within d (child d b i) q).
      { rewrite CK in KQ. destruct ord as [K|] eqn:EO; [apply (KQ K eq_refl)|]. destruct (sn_child d L skip b Wb q Sq A NE) as (_ & j & Hj & B). exists j. split; [|exact B]. unfold chosen. rewrite EO. apply kids_has. split; [exact Hj|]. destruct Sq as (_ & (x & Ix & Ax) & _). exists x. split; [exact Ix|]. eapply within_trans; eauto. }
      destruct EI as (i & Ii & Ai). exists (child d b i). split; [apply child_like; auto; apply Sq|]. destruct (concat_at b q i Wb Lb (proj1 Sq) Ai (chosen b) Ts ND Ii HI _ F) as (T & (HT & _) & ET). rewrite filter_app, told_at. cbn [app]. rewrite ET. apply HT.
    - intros q e I E. apply in_app_or in I. destruct I as [I|I].
      { unfold told in I. destruct ord; [|destruct I]. destruct I as [<-|[]]. discriminate E. }
      apply in_concat in I. destruct I as (T & IT & Ie). destruct (f2_in_r _ _ _ F T IT) as (i & Ii & (HC & _) & HE). rewrite Forall_forall in HE. pose proof (ev_at _ _ _ (HE e Ie) E) as AQ. destruct (child_up b i Wb Lb (HI i Ii)) as (H1 & H2 & H3).
      split; [intros ->; contradiction|]. split; [rewrite CK; intros K EO; exists i; auto|]. exists (child d b i). pose proof (proj2 (HC q) e Ie E) as CQ. split; [apply child_like; auto; apply CQ|exact CQ].
    - assert (F' : Forall2 (fun i T => NEST T /\ Forall (EVIN (child d b i)) T) (chosen b) Ts).
      { clear - F. induction F as [|i T l m H F IH]; constructor; [tauto|exact IH]. }
      unfold told, chosen in *. destruct ord as [K|] eqn:EO; cbn [app]; rewrite <- EO in *.
      + apply (below_order d Pt ord P t L b K Ts EO). exact F'.
      + apply below_all; [exact EO|exact F'].
    - apply Forall_app. split.
      + unfold told. destruct ord; constructor; [|constructor]. cbn [ev_in]. unfold siblings. apply Forall_forall. intros c I. apply in_map_iff in I. destruct I as (i & <- & I). apply in_seq in I. cbn [fst snd]. split; [reflexivity|]. apply child_within; auto. pose proof (chn d). lia.
      + apply Forall_forall. intros e I. apply in_concat in I. destruct I as (T & IT & Ie). destruct (f2_in_r _ _ _ F T IT) as (i & Ii & _ & HE). rewrite Forall_forall in HE. destruct (child_up b i Wb Lb (HI i Ii)) as (H1 & H2 & H3). apply (ev_up _ _ _ H2). apply HE. exact Ie.
  Qed.

  (** *** the recursion *)
  Notation LOG := (list (rcall Pt)).
  Definition body (b : quad) (n : Z) (same : bool) (act : list nat) (cont : LOG -> option (list nat) -> option LOG) (s : LOG) : option LOG :=
    let (s, go) := call_pre LOG Pt REC t s b n in
    if negb go then Some s
    else
      let asked :=
        match r_points REC with
        | None => Some (s, Some None)
        | Some pl =>
          match points_loop LOG Pt REC t pl s b n same act [] with
          | None => None
          | Some (s, chact) => Some (s, match chact with [] => None | _ => Some (Some chact) end)
          end
        end in
      let below := match asked with None => None | Some (s, None) => Some s | Some (s, Some chact) => cont s chact end in
      match below with None => None | Some s => Some (call_post LOG Pt REC t s b n) end.
  Definition act_list (actives : option (list nat)) : list nat :=
    match pts, actives with Some pl, None => seq 0 (length pl) | _, None => [] | _, Some a => a end.

  Lemma body_ok b0 b same actives ps cont s : wf d b0 -> wf d b -> within d b0 b -> SN b -> (forall q, SN q -> within d b0 q -> within d b q) ->
    rrel actives ps -> ps <> Some [] -> (same = true -> In b L) ->
    (forall s ch, rrel ch (fps b ps) -> same = false -> exists TB, cont s ch = Some (s ++ TB) /\ bspec b (fps b ps) TB) -> (same = true -> forall s ch, cont s ch = Some s) ->
    exists T, body b (NUM b) same (act_list actives) cont s = Some (s ++ T) /\ (forall q, CARE b0 ps q T) /\ NEST T /\ Forall (EVIN b0) T.
  Proof.
    intros W0 Wb B0 Sb HB RR NP HS HC HCS. pose proof (assemble b0 b Wb B0 Sb HB ps) as AS.
    assert (G : forall TB, (P t b (NUM b) = true -> bspec b (fps b ps) TB) -> body b (NUM b) same (act_list actives) cont s = Some (s ++ Pre t b (NUM b) :: if P t b (NUM b) then map (Point t b (NUM b)) (psl ps) ++ TB ++ [Post t b (NUM b)] else []) ->
      exists T, body b (NUM b) same (act_list actives) cont s = Some (s ++ T) /\ (forall q, CARE b0 ps q T) /\ NEST T /\ Forall (EVIN b0) T).
    { intros TB HTB E. eexists. split; [exact E|]. apply AS; auto. }
    clear AS. unfold body in *. change (call_pre LOG Pt REC t s b (NUM b)) with (s ++ [Pre t b (NUM b)], P t b (NUM b)) in *. cbv iota beta in *.
    destruct (P t b (NUM b)) eqn:EP; cbn [negb] in *; [|apply (G []); [discriminate|reflexivity]].
    change (r_points REC) with pts in *. unfold rrel in RR, HC. destruct pts as [pl|] eqn:EPT.
    - destruct RR as (l & -> & F). cbn [psl fps option_map] in *. pose proof (loop_log pl b (NUM b) same (act_list actives) l (s ++ [Pre t b (NUM b)]) []) as LL. unfold act_list in LL, G |- *. rewrite EPT in LL, G |- *.
      destruct (LL F) as (ch' & R & H1 & H2). clear LL. rewrite R in *. cbn [app] in *. destruct same.
      + rewrite (H1 eq_refl) in *. apply (G []); [intros _; apply bs_leaf; auto|]. cbv iota beta. unfold call_post. cbn [log_rrec r_post]. rewrite <- !app_assoc. reflexivity.
      + specialize (H2 eq_refl). destruct ch' as [|c0 ch'].
        * assert (E : filter (PP t b (NUM b)) l = []) by (inversion H2; reflexivity). unfold fps in G. cbn [option_map] in G. apply (G []); [intros _; rewrite E; apply bs_stop|]. cbv iota beta. unfold call_post. cbn [log_rrec r_post]. rewrite <- !app_assoc. reflexivity.
        * destruct (HC ((s ++ [Pre t b (NUM b)]) ++ map (Point t b (NUM b)) l) (Some (c0 :: ch'))) as (TB & E & BS); [|reflexivity|].
          { eexists. split; [reflexivity|exact H2]. }
          apply (G TB); [intros _; exact BS|]. rewrite E. cbv iota beta. unfold call_post. cbn [log_rrec r_post]. rewrite <- !app_assoc. reflexivity.
    - subst ps. cbn [psl fps option_map] in *. destruct same.
      + apply (G []); [intros _; apply bs_leaf; auto|]. rewrite HCS by reflexivity. unfold call_post. cbn [log_rrec r_post map app]. rewrite <- !app_assoc. reflexivity.
      + destruct (HC (s ++ [Pre t b (NUM b)]) None eq_refl eq_refl) as (TB & E & BS). apply (G TB); [intros _; exact BS|]. rewrite E. unfold call_post. cbn [log_rrec r_post map app]. rewrite <- !app_assoc. reflexivity.
  Qed.

  Definition run_ok (s : LOG) (b0 : quad) (ps : option (list Pt)) (r : option LOG) : Prop :=
    exists T, r = Some (s ++ T) /\ (forall q, CARE b0 ps q T) /\ NEST T /\ Forall (EVIN b0) T.

  Lemma run : forall fuel s b0 base W actives ps, wf d b0 -> win d L b0 base W -> 31 - ql b0 <= Z.of_nat fuel -> rrel actives ps ->
    run_ok s b0 ps (reorder_recursion d LOG Pt REC t off fuel s b0 base W actives).
  Proof.
    induction fuel as [|fuel IH]; intros s b0 base W actives ps W0 HW HF RR; [pose proof (wf_level d b0 W0); lia|].
    pose proof HW as (WL & WI & WN). pose proof (win_inside d L LW b0 base W HW) as INS.
    destruct W as [|q more].
    { exists []. rewrite app_nil_r. split; [reflexivity|]. split; [|split; [constructor|constructor]]. intros r. split; [|intros e []]. intros ((_ & (x & Ix & Ax) & _) & B & _). exfalso. apply (proj2 (WI x)). split; [exact Ix|]. eapply within_trans; eauto. }
    assert (Iq : In q L /\ within d b0 q) by (apply WI; left; reflexivity). destruct Iq as (Iq & Aq). pose proof (lwf d L LW q Iq) as Wq.
    set (is_leaf := match more with [] => true | _ => false end). set (lq := last (q :: more) q). set (is_same := is_leaf && (is_equal d b0 q || skip)).
    set (b := if is_same then q else if negb is_leaf && skip && (ancestor_id d q (ql b0 + 1) =? ancestor_id d lq (ql b0 + 1)) then nearest_common_ancestor d q lq else b0).
    set (n := if is_same then off + Z.of_nat base else -1).
    set (fold_kids := fun (s : LOG) chact indices => fold_left (fun (os : option LOG) (i : Z) =>
                    match os with
                    | None => None
                    | Some s =>
                      if (i <? 0) || (children d <=? i) then None
                      else
                        reorder_recursion d LOG Pt REC t off fuel s (child d b i) (base + nth (Z.to_nat i) (split_array d (q :: more) (ql b)) 0%nat)
                          (firstn (nth (Z.to_nat i + 1) (split_array d (q :: more) (ql b)) 0%nat - nth (Z.to_nat i) (split_array d (q :: more) (ql b)) 0%nat) (skipn (nth (Z.to_nat i) (split_array d (q :: more) (ql b)) 0%nat) (q :: more))) chact
                    end) indices (Some s)).
    set (cont := fun (s : LOG) chact =>
                if is_leaf then
                  if is_same then Some s
                  else reorder_recursion d LOG Pt REC t off fuel s (if 1 <? ql q - ql b then ancestor d q (ql b + 1) else q) base (q :: more) chact
                else
                  let indices := filter (fun i => Nat.ltb (nth (Z.to_nat i) (split_array d (q :: more) (ql b)) 0%nat) (nth (Z.to_nat i + 1) (split_array d (q :: more) (ql b)) 0%nat)) (map Z.of_nat (seq 0 (childrenn d))) in
                  let '(s, indices, go) :=
                    match r_order REC with
                    | None => (s, indices, true)
                    | Some f => f s (siblings d t b) indices
                    end in
                  if negb go then Some s else fold_kids s chact indices).
    assert (EQ : reorder_recursion d LOG Pt REC t off (S fuel) s b0 base (q :: more) actives =
      if match pts with None => false | Some _ => Nat.eqb (length (act_list actives)) 0 end then Some s else body b n is_same (act_list actives) cont s) by reflexivity.
    rewrite EQ. clear EQ.
    (* no points *)
    assert (EP : (match pts with None => false | Some _ => Nat.eqb (length (act_list actives)) 0 end) = true -> ps = Some []).
    { unfold rrel, act_list in *. destruct pts as [pl|]; [|discriminate]. destruct RR as (l & -> & F). intros E. apply Nat.eqb_eq in E. pose proof (f2_len _ _ _ F). destruct l; [reflexivity|]. cbn [length] in *. lia. }
    assert (EP' : (match pts with None => false | Some _ => Nat.eqb (length (act_list actives)) 0 end) = false -> ps <> Some []).
    { unfold rrel, act_list in *. destruct pts as [pl|]; [|subst; discriminate]. destruct RR as (l & -> & F). intros E. apply Nat.eqb_neq in E. pose proof (f2_len _ _ _ F). intros K. injection K as ->. cbn [length] in *. lia. }
    destruct (match pts with None => false | Some _ => _ end); [specialize (EP eq_refl); subst ps|].
    { exists []. rewrite app_nil_r. split; [reflexivity|]. split; [|split; constructor]. intros r. split; [|intros e []]. intros (_ & _ & _ & H). destruct (H [] eq_refl) as (p & [] & _). }
    clear EP. specialize (EP' eq_refl).
    (* the quadrant *)
    assert (EQUAL : is_equal d b0 q = true <-> b0 = q) by (apply is_equal_eq; auto).
    destruct more as [|q2 more].
    - (* one leaf *)
      assert (ONE : forall x, In x L -> within d b0 x -> x = q). { intros x Ix Ax. destruct (proj2 (WI x) (conj Ix Ax)) as [E|[]]; auto. }
      subst is_leaf. cbv iota in *. cbn [negb andb] in *. destruct is_same eqn:SAME; subst b n.
      + replace (off + Z.of_nat base) with (NUM q) by (apply num_at; rewrite <- (Nat.add_0_r base); apply WN; reflexivity).
        apply body_ok; auto; [| |discriminate].
        * split; [exact Wq|]. split; [exists q; split; [exact Iq|apply within_refl]|]. intros _. left. exact Iq.
        * intros r Sr Ar. destruct skip eqn:SK; [|].
          { apply (sn_hull d L LW true b0 q r); auto; [exists q; split; [exact Iq|apply within_refl]|]. intros x Ix Ax. rewrite (ONE x Ix Ax). apply within_refl. }
          { subst is_same. rewrite orb_false_r in SAME. apply EQUAL in SAME. subst q. exact Ar. }
      + subst is_same. apply orb_false_iff in SAME. destruct SAME as (NEQ & SK).
        assert (NE : b0 <> q) by (intros E; apply EQUAL in E; congruence).
        assert (NI : ~ In b0 L). { intros I. apply NE. apply (leaf_in d L LW LS); auto. }
        rewrite <- (num_none b0 NI). pose proof (within_level d b0 q W0 Wq Aq) as LV. assert (LV1 : ql b0 < ql q). { destruct (Z.eq_dec (ql b0) (ql q)) as [E|E]; [exfalso; apply NE; apply (within_eq d); auto|lia]. }
        pose proof (wf_level d q Wq) as LQ. destruct (anc_child d b0 q W0 Wq Aq LV1) as (Ri & Ai). set (i := ancestor_id d q (ql b0 + 1)) in *.
        destruct (child_wf d b0 i W0 ltac:(lia) Ri) as (Wc & Lc & _).
        set (c := if 1 <? ql q - ql b0 then ancestor d q (ql b0 + 1) else q) in *.
        assert (EC : c = child d b0 i).
        { assert (CC : wf d c /\ ql c = ql b0 + 1 /\ within d c q).
          { unfold c. destruct (Z.ltb_spec 1 (ql q - ql b0)); [|split; [exact Wq|split; [lia|apply within_refl]]]. pose proof (wf_level d b0 W0). destruct (ancestor_wf d q (ql b0 + 1) Wq ltac:(lia)) as (K1 & K2 & _). split; [exact K1|]. split; [exact K2|]. apply (ancestor_contains d q (ql b0 + 1) Wq ltac:(lia)). }
          destruct CC as (K1 & K2 & K3). pose proof (size_pos d q Wq). destruct (SearchLocal.nested d c (child d b0 i) K1 Wc) as [K|K]; [unfold within in *; lia|unfold within in *; lia| |]; [|symmetry]; apply (within_eq d); auto; lia. }
        apply body_ok; auto; [apply within_refl| |discriminate| |discriminate].
        * split; [exact W0|]. split; [exists q; auto|]. rewrite SK. discriminate.
        * intros s' ch RC _. unfold cont. rewrite EC. 
          destruct (IH s' (child d b0 i) base [q] ch (fps b0 ps) Wc) as (T & E & H1 & H2 & H3).
          { split; [exact WL|]. split; [|exact WN]. intros x. split.
            - intros [<-|[]]. auto.
            - intros (Ix & Ax). left. symmetry. apply ONE; [exact Ix|]. eapply within_trans; [apply (child_within d b0 i); auto; lia|exact Ax]. }
          { lia. }
          { exact RC. }
          exists T. split; [exact E|]. apply (bs_one b0 i); auto; [lia| |].
          { intros x Ix Ax. rewrite (ONE x Ix Ax). exact Ai. }
          { intros (x & y & Ix & Iy & N & Ax & Ay). apply N. rewrite (ONE x Ix Ax), (ONE y Iy Ay). reflexivity. }
    - (* several leaves *)
      subst is_leaf is_same. cbv iota in *. cbn [negb andb] in *.
      assert (Qin : In q (q :: q2 :: more)) by (left; reflexivity). pose proof (lq_in d b0 q q2 more W0 WL INS) as LQin. fold lq in LQin.
      assert (FB : wf d b /\ within d b0 b /\ SN b /\ (forall r, SN r -> within d b0 r -> within d b r) /\ (forall x, In x (q :: q2 :: more) -> within d b x) /\ (forall x, In x (q :: q2 :: more) -> ql b < ql x)).
      { destruct skip eqn:SK.
        - cbn [andb] in b. assert (EB : b = nearest_common_ancestor d q lq) by (unfold b, lq; apply (code_b d b0 q q2 more W0 WL INS)). clearbody b. subst b.
          pose proof (b_spec d b0 q q2 more W0 WL INS) as (K1 & K2 & K3 & _). pose proof (b_in d b0 q q2 more W0 WL INS) as K4. pose proof (b0_b d b0 q q2 more W0 WL INS) as K5. pose proof (ends_differ d b0 q q2 more W0 WL INS) as K6. fold lq in K1, K2, K3, K4, K5, K6. set (b := nearest_common_ancestor d q lq) in *.
          assert (K7 : forall x, In x (q :: q2 :: more) -> ql b < ql x) by (intros x I; apply (lev d b0 q q2 more W0 WL INS b x); auto).
          assert (HWB : win d L b base (q :: q2 :: more)). { split; [exact WL|]. split; [|exact WN]. intros x. split; [intros I; split; [apply WI; exact I|apply K4; exact I]|]. intros (Ix & Ax). apply WI. split; [exact Ix|]. eapply within_trans; eauto. }
          assert (LB : ql b < 29). { pose proof (K7 q Qin). pose proof (wf_level d q Wq). lia. }
          destruct (sp_ty d L LW b base _ K1 HWB K7 q Qin) as (T1 & T2). destruct (sp_ty d L LW b base _ K1 HWB K7 lq LQin) as (T3 & T4). pose proof (chn d).
          split; [exact K1|]. split; [exact K5|]. split; [|split; [|split; [exact K4|exact K7]]].
          + split; [exact K1|]. split; [exists q; auto|]. intros _. right. split; [exact K1|]. split; [exact LB|]. exists (Z.of_nat (cty d b q)), (Z.of_nat (cty d b lq)), q, lq. split; [lia|]. split; [lia|]. split; [lia|]. split; [exact Iq|]. split; [apply WI; exact LQin|]. auto.
          + intros r Sr Ar. apply (sn_hull d L LW true b0 b r); auto; [exists q; auto|]. intros x Ix Ax. apply K4. apply WI. auto.
        - cbn [andb] in b. subst b. split; [exact W0|]. split; [apply within_refl|]. split; [|split; [auto|split]].
          + split; [exact W0|]. split; [exists q; auto|]. discriminate.
          + intros x I. apply WI. exact I.
          + assert (AL : within d b0 lq) by (apply WI; exact LQin). unfold lq in AL. intros x I. apply (lev d b0 q q2 more W0 WL INS); auto. }
      destruct FB as (Wb & B0 & Sb & HB & Bin & Blev). clearbody b.
      assert (HWB : win d L b base (q :: q2 :: more)). { split; [exact WL|]. split; [|exact WN]. intros x. split; [intros I; split; [apply WI; exact I|apply Bin; exact I]|]. intros (Ix & Ax). apply WI. split; [exact Ix|]. eapply within_trans; eauto. }
      assert (LB : ql b < 29). { pose proof (Blev q Qin). pose proof (wf_level d q Wq). lia. }
      assert (MB : many d L b). { exists q, q2. assert (I2 : In q2 (q :: q2 :: more)) by (right; left; reflexivity). split; [exact Iq|]. split; [apply WI; exact I2|]. split; [|split; [apply Bin; exact Qin|apply Bin; exact I2]]. inversion WL as [|? ? _ FQ]; subst. inversion FQ; subst. intros ->. apply (before_irrefl q2 Wq). assumption. }
      assert (NI : ~ In b L). { intros I. destruct MB as (x & y & Ix & Iy & N & Ax & Ay). apply N. transitivity b; [symmetry|]; apply (leaf_in d L LW LS); auto. }
      subst n. rewrite <- (num_none b NI). apply body_ok; auto; [discriminate| |discriminate].
      intros s' ch RC _. unfold cont. rewrite (sp_kids d L LW b base (q :: q2 :: more) Wb HWB LB Blev) by discriminate.
      assert (FK : forall idx s', (forall i, In i idx -> 0 <= i < children d) -> exists Ts, fold_kids s' ch idx = Some (s' ++ concat Ts) /\ Forall2 (fun i T => ((forall q, CARE (child d b i) (fps b ps) q T) /\ NEST T) /\ Forall (EVIN (child d b i)) T) idx Ts).
      { unfold fold_kids. clear - IH Wb HWB LB Blev RC HF B0 W0 LW. induction idx as [|i idx IHi]; intros s' HI; [exists []; cbn [fold_left concat]; rewrite app_nil_r; split; [reflexivity|constructor]|].
        cbn [fold_left]. pose proof (HI i (or_introl eq_refl)) as Hi. replace ((i <? 0) || (children d <=? i)) with false by lia. pose proof (chn d) as CH.
        rewrite !(sp_nth d L b base (q :: q2 :: more) HWB Blev) by (discriminate || lia). cbv beta. destruct (child_wf d b i Wb LB Hi) as (Wc & Lc & _).
        pose proof (sp_win d L LW b base (q :: q2 :: more) Wb HWB LB Blev (Z.to_nat i) ltac:(lia)) as HWC. cbv beta in HWC. rewrite Z2Nat.id in HWC by lia. pose proof (within_level d b0 b W0 Wb B0).
        match goal with |- exists Ts, fold_left _ idx (reorder_recursion _ _ _ _ _ _ _ _ _ ?ba ?w _) = _ /\ _ => destruct (IH s' (child d b i) ba w ch (fps b ps) Wc HWC ltac:(lia) RC) as (T & E & H1 & H2 & H3) end.
        rewrite E. destruct (IHi (s' ++ T) (fun k I => HI k (or_intror I))) as (Ts & E2 & F2). exists (T :: Ts). split; [cbn [concat]; rewrite app_assoc; exact E2|]. constructor; [split; [split; [exact H1|exact H2]|exact H3]|exact F2]. }
      pose proof (bs_many b (fps b ps)) as BM. destruct (chosen_ok b) as (ND & HK). assert (HI : forall i, In i (chosen b) -> 0 <= i < children d) by (intros i I; apply (kids_in d L b i); apply HK; exact I).
      pose proof (fun s => FK (chosen b) s HI) as FKC. unfold log_rrec at 1. cbn [r_order]. unfold told, chosen in *. destruct ord as [K|] eqn:EO; cbn [option_map].
      + set (KV := K (siblings d t b) (kids d L b)) in *. cbv iota beta. destruct (snd KV); cbn [negb].
        * destruct (FKC (s' ++ [Order (siblings d t b) (kids d L b)])) as (Ts & E & F). exists ([Order (siblings d t b) (kids d L b)] ++ concat Ts). split; [rewrite E, <- app_assoc; reflexivity|]. apply (BM Ts); auto.
        * exists ([Order (siblings d t b) (kids d L b)] ++ concat []). split; [reflexivity|]. apply (BM []); auto.
      + destruct (FKC s') as (Ts & E & F). exists (concat Ts). cbn [negb]. split; [exact E|]. apply (BM Ts); auto.
  Qed.
End Run.
