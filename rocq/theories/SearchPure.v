(** * Traces of p4est_search_local for callbacks that log and decide by predicates *)

From Coq Require Import ZArith List Bool Lia Arith Sorting.Sorted ZifyBool.
From Verif Require Import Quad Spec Morton Interval QuadLemmas CompareLemmas DescLemmas SuccLemmas
  Tree TreeLemmas Search SearchLemmas SearchLocal.
Import ListNotations.
Open Scope Z_scope.

(** one call of a callback: tree, quadrant, local number (and point) *)
Inductive event (Pt : Type) :=
| CallQ (tree : Z) (q : quad) (num : Z)
| CallP (tree : Z) (q : quad) (num : Z) (p : Pt).
Arguments CallQ {Pt}.
Arguments CallP {Pt}.

Definition strictb (d : dim) (b q : quad) : bool := withinb d b q && (ql b <? ql q).

(** the callbacks under consideration: they append to a log and answer by
    predicates of their arguments *)
Definition log_rec {Pt} (P : Z -> quad -> Z -> bool) (PP : Z -> quad -> Z -> Pt -> bool)
    (post : bool) (pts : option (list Pt)) : lrec (list (event Pt)) Pt :=
  mklrec post (Some (fun s t q n => (s ++ [CallQ t q n], P t q n)))
         (fun s t q n p => (s ++ [CallP t q n p], PP t q n p)) pts.

Section Pure.
  Variable d : dim.
  Variable Pt : Type.
  Variable P : Z -> quad -> Z -> bool.
  Variable PP : Z -> quad -> Z -> Pt -> bool.
  Variable post : bool.
  Variable pts0 : option (list Pt).
  Variables (tree off : Z).
  Notation rec := (log_rec P PP post pts0).
  Notation num := (node_num off).
  Notation RUN := (run d (list (event Pt)) Pt rec tree off).

  Definition okq (n : node) : bool := P tree (fst n) (num n).
  Definition okp (n : node) (p : Pt) : bool := PP tree (fst n) (num n) p.

  Definition step (n : node) (ps : option (list Pt)) : option (list Pt) :=
    if okq n then match ps with None => None | Some l => Some (filter (okp n) l) end else Some [].

  Definition ev (n : node) (ps : option (list Pt)) : list (event Pt) :=
    let cq := CallQ tree (fst n) (num n) in
    match ps with
    | None => [cq]
    | Some [] => []
    | Some l => cq :: if okq n then map (CallP tree (fst n) (num n)) l ++ (if post then [cq] else []) else []
    end.

  Definition actv (M : list node) (n : node) (ps : option (list Pt)) : option (list Pt) :=
    fold_left (fun ps m => if strictb d (fst m) (fst n) then step m ps else ps) M ps.

  Lemma actv_empty M n : actv M n (Some []) = Some [].
  Proof.
    unfold actv. induction M as [|m M IH]; [reflexivity|]. cbn. destruct (strictb d (fst m) (fst n)); [|auto].
    unfold step. destruct (okq m); auto.
  Qed.

  Lemma actv_cons m M n ps : actv (m :: M) n ps = actv M n (if strictb d (fst m) (fst n) then step m ps else ps).
  Proof. reflexivity. Qed.

  Lemma actv_filter f M n : (forall m, In m M -> f m = false -> strictb d (fst m) (fst n) = false) ->
    forall ps, actv (filter f M) n ps = actv M n ps.
  Proof.
    induction M as [|m M IH]; intros H ps; [reflexivity|]. cbn [filter].
    assert (IH' : forall ps, actv (filter f M) n ps = actv M n ps) by (apply IH; intros; apply H; [right; auto|auto]).
    destruct (f m) eqn:E.
    - rewrite !actv_cons. apply IH'.
    - rewrite actv_cons, (H m) by (auto; left; auto). apply IH'.
  Qed.

  Lemma ask_log n : forall l s, ask _ Pt rec tree off s n l = (s ++ map (CallP tree (fst n) (num n)) l, filter (okp n) l).
  Proof.
    induction l as [|p l IH]; intros s; [cbn; rewrite app_nil_r; reflexivity|].
    cbn [ask]. cbn [point_fn log_rec]. rewrite IH. cbn [map filter]. rewrite <- app_assoc. cbn [app].
    fold (okp n p). reflexivity.
  Qed.

  Lemma visit_log s n ps : ps <> Some [] ->
    let r := visit _ Pt rec tree off s n ps in
    fst r = s ++ ev n ps /\
    (okq n = false -> snd r = None) /\ (okq n = true -> snd r = Some (step n ps)).
  Proof.
    intros Hne. unfold visit, ask_quadrant. cbn [quadrant_fn log_rec]. fold (okq n).
    destruct (okq n) eqn:E; cbn [negb].
    - destruct ps as [l|].
      + rewrite ask_log. cbn [call_post log_rec]. destruct post eqn:Ep.
        * cbn [fst snd]. split; [|split; [congruence|]].
          -- unfold ev. rewrite E, Ep. destruct l; [congruence|]. rewrite <- !app_assoc. reflexivity.
          -- unfold step. rewrite E. reflexivity.
        * cbn [fst snd]. split; [|split; [congruence|]].
          -- unfold ev. rewrite E, Ep. destruct l; [congruence|]. rewrite app_nil_r, <- !app_assoc. reflexivity.
          -- unfold step. rewrite E. reflexivity.
      + cbn [fst snd]. split; [reflexivity|]. split; [congruence|]. unfold step. rewrite E. reflexivity.
    - cbn [fst snd]. split; [|split; [auto|congruence]]. unfold ev. rewrite E. destruct ps as [[|p l]|]; auto; congruence.
  Qed.

  Definition winv (w : work Pt) : Prop :=
    StronglySorted (fun e f => node_lt d (fst e) (fst f)) w /\
    (forall n ps, In (n, ps) w -> wf d (fst n)) /\
    (forall n ps n' ps', In (n, ps) w -> In (n', ps') w -> within d (fst n) (fst n') -> ps = ps').

  Lemma update_none_filter b w : update d Pt b None w = filter (fun e : node * option (list Pt) => negb (withinb d b (fst (fst e)))) w.
  Proof.
    induction w as [|e w IH]; [reflexivity|]. unfold update in *. cbn [flat_map filter]. rewrite IH.
    unfold update1. destruct (withinb d b (fst (fst e))); reflexivity.
  Qed.

  Lemma update_some_map b ps w : update d Pt b (Some ps) w =
    map (fun e : node * option (list Pt) => (fst e, if withinb d b (fst (fst e)) then ps else snd e)) w.
  Proof.
    induction w as [|e w IH]; [reflexivity|]. unfold update in *. cbn [flat_map map]. rewrite IH.
    unfold update1. destruct e as (n, p). cbn [fst snd]. destruct (withinb d b (fst n)); reflexivity.
  Qed.

  Lemma SS_map {A B} (R : B -> B -> Prop) (f : A -> B) l :
    StronglySorted (fun x y => R (f x) (f y)) l -> StronglySorted R (map f l).
  Proof.
    induction 1 as [|x l S IH F]; [constructor|]. cbn. constructor; [auto|].
    rewrite Forall_forall in *. intros y Hy. apply in_map_iff in Hy. destruct Hy as (z & <- & I). auto.
  Qed.

  Lemma later_not_in n ps w n' ps' : winv ((n, ps) :: w) -> In (n', ps') w ->
    withinb d (fst n) (fst n') = true -> strictb d (fst n) (fst n') = true.
  Proof.
    intros (S & Wf & _) I B. inversion S as [|? ? _ F]; subst. rewrite Forall_forall in F.
    specialize (F _ I). cbn [fst] in F. unfold node_lt in F. unfold strictb. rewrite B. cbn [andb].
    apply withinb_iff in B.
    pose proof (Wf n' ps' ltac:(right; auto)) as W. pose proof (Wf n ps ltac:(left; auto)) as Wn.
    pose proof (within_level d _ _ Wn W B).
    destruct (Z.eq_dec (ql (fst n)) (ql (fst n'))) as [E|E]; [exfalso|lia].
    pose proof (within_eq d _ _ Wn W B E) as EQ. rewrite EQ in F.
    pose proof (compare_wf d (fst n') (fst n') W W) as (A & _). apply A in F. lia.
  Qed.

  Lemma winv_tail e w : winv (e :: w) -> winv w.
  Proof.
    intros (S & Wf & E). inversion S; subst. split; [auto|]. split.
    - intros; eapply Wf; right; eauto.
    - intros n1 ps1 n2 ps2 I1 I2. apply (E n1 ps1 n2 ps2); right; auto.
  Qed.

  Lemma winv_drop n ps w : winv ((n, ps) :: w) -> winv (update d Pt (fst n) None w).
  Proof.
    intros H. apply winv_tail in H. destruct H as (S & Wf & E). rewrite update_none_filter. split; [|split].
    - apply SS_filter. auto.
    - intros n' ps' I. apply filter_In in I. eapply Wf, I.
    - intros n1 ps1 n2 ps2 I1 I2. apply filter_In in I1. apply filter_In in I2. apply (E n1 ps1 n2 ps2); tauto.
  Qed.

  Lemma winv_set n ps w r : winv ((n, ps) :: w) -> winv (update d Pt (fst n) (Some r) w).
  Proof.
    intros H. pose proof H as (S0 & Wf0 & _). pose proof (winv_tail _ _ H) as (S & Wf & E). rewrite update_some_map.
    split; [|split].
    - apply SS_map. cbn [fst]. auto.
    - intros n' ps' I. apply in_map_iff in I. destruct I as ((n1, ps1) & Eq & I). inversion Eq; subst. eapply Wf; eauto.
    - intros n1 ps1 n2 ps2 I1 I2 Win.
      apply in_map_iff in I1. destruct I1 as ((n1', p1) & Eq1 & I1). cbn [fst snd] in Eq1. inversion Eq1; subst. clear Eq1.
      apply in_map_iff in I2. destruct I2 as ((n2', p2) & Eq2 & I2). cbn [fst snd] in Eq2. inversion Eq2; subst. clear Eq2.
      destruct (withinb d (fst n) (fst n1)) eqn:B1.
      + apply withinb_iff in B1. pose proof (within_trans d _ _ _ B1 Win) as B2. apply withinb_iff in B2. rewrite B2. auto.
      + destruct (withinb d (fst n) (fst n2)) eqn:B2; [exfalso|eapply E; eauto].
        apply withinb_iff in B2.
        pose proof (Wf0 n ps ltac:(left; auto)) as Wn. pose proof (Wf _ _ I1) as W1. pose proof (Wf _ _ I2) as W2.
        pose proof (size_pos d _ W2).
        destruct (nested d _ _ Wn W1) as [X|X]; [unfold within in *; lia..| |].
        * apply withinb_iff in X. congruence.
        * inversion S0 as [|? ? _ F]; subst. rewrite Forall_forall in F. specialize (F _ I1). unfold node_lt in F. cbn [fst] in F.
          apply (compare_wf d _ _ Wn W1) in F. pose proof (within_level d _ _ W1 Wn X). unfold within in X. lia.
  Qed.

  Lemma strict_within b q : strictb d b q = true -> withinb d b q = true.
  Proof. unfold strictb. intros H. apply andb_true_iff in H. tauto. Qed.

  Lemma actv_not_within M n ps m : withinb d (fst m) (fst n) = false -> actv (m :: M) n ps = actv M n ps.
  Proof.
    intros H. rewrite actv_cons. destruct (strictb d (fst m) (fst n)) eqn:E; [|reflexivity].
    apply strict_within in E. congruence.
  Qed.

  Lemma flat_map_ext_in {A B} (f g : A -> list B) l : (forall x, In x l -> f x = g x) -> flat_map f l = flat_map g l.
  Proof.
    induction l as [|x l IH]; intros H; [reflexivity|]. cbn. rewrite (H x) by (left; auto).
    f_equal. apply IH. intros; apply H; right; auto.
  Qed.

  Lemma run_log : forall k w s, (length w <= k)%nat -> winv w ->
    RUN s w = s ++ flat_map (fun e : node * option (list Pt) => ev (fst e) (actv (map fst w) (fst e) (snd e))) w.
  Proof.
    induction k as [|k IH]; intros w s Hk Inv.
    { destruct w; [|cbn in Hk; lia]. cbn. rewrite app_nil_r. reflexivity. }
    destruct w as [|(n, ps) w]; [cbn; rewrite app_nil_r; reflexivity|]. cbn in Hk. apply le_S_n in Hk.
    pose proof Inv as (S & Wf & E).
    (* the first node has no container in the list *)
    assert (FIRST : actv (map fst ((n, ps) :: w)) n ps = ps).
    { unfold actv. 
      assert (G : forall M ps, (forall m, In m M -> strictb d (fst m) (fst n) = false) ->
         fold_left (fun ps m => if strictb d (fst m) (fst n) then step m ps else ps) M ps = ps).
      { induction M as [|m M IHM]; intros p Hm; [reflexivity|]. cbn. rewrite Hm by (left; auto). apply IHM. intros; apply Hm; right; auto. }
      apply G. intros m I. cbn [map fst] in I. destruct I as [<-|I].
      - unfold strictb. rewrite Z.ltb_irrefl. apply andb_false_r.
      - apply in_map_iff in I. destruct I as ((m', pm) & <- & I). cbn [fst].
        destruct (strictb d (fst m') (fst n)) eqn:X; [|auto]. exfalso. apply strict_within, withinb_iff in X.
        inversion S as [|? ? _ F]; subst. rewrite Forall_forall in F. specialize (F _ I). unfold node_lt in F. cbn [fst] in F.
        pose proof (Wf n ps ltac:(left; auto)) as Wn. pose proof (Wf m' pm ltac:(right; auto)) as Wm.
        apply (compare_wf d _ _ Wn Wm) in F. pose proof (within_level d _ _ Wm Wn X). unfold within in X. lia. }
    (* elements inside the first node *)
    assert (IN : forall n' ps', In (n', ps') w -> withinb d (fst n) (fst n') = true ->
       ps' = ps /\ actv (n :: map fst w) n' ps' = actv (map fst w) n' (step n ps)).
    { intros n' ps' I B. assert (ps = ps').
      { apply (E n ps n' ps'); [left; auto|right; auto|apply withinb_iff; auto]. }
      subst ps'. split; [auto|]. rewrite actv_cons. rewrite (later_not_in n ps w n' ps) by auto. reflexivity. }
    rewrite run_cons. cbn [flat_map fst snd]. rewrite FIRST.
    cbn [map fst].
    assert (MAIN : ps <> Some [] ->
      (let (s', r) := visit _ Pt rec tree off s n ps in RUN s' (update d Pt (fst n) r w)) =
      s ++ ev n ps ++ flat_map (fun e : node * option (list Pt) => ev (fst e) (actv (n :: map fst w) (fst e) (snd e))) w).
    { intros Hne. pose proof (visit_log s n ps Hne) as (V1 & V2 & V3).
      destruct (visit _ Pt rec tree off s n ps) as (s', r). cbn [fst snd] in *. subst s'.
      destruct (okq n) eqn:Eq.
      - rewrite V3 by auto. clear V2 V3.
        rewrite IH; [|eapply Nat.le_trans; [apply update_length|auto]|eapply winv_set; eauto].
        rewrite <- app_assoc. do 2 f_equal. rewrite update_some_map.
        rewrite map_map. cbn [fst]. rewrite flat_map_concat_map, map_map, <- flat_map_concat_map.
        apply flat_map_ext_in. intros (n', ps') I. cbn [fst snd].
        destruct (withinb d (fst n) (fst n')) eqn:B.
        + destruct (IN n' ps' I B) as (_ & ->). reflexivity.
        + rewrite actv_not_within by auto. reflexivity.
      - rewrite V2 by auto. clear V2 V3.
        rewrite IH; [|eapply Nat.le_trans; [apply update_length|auto]|eapply winv_drop; eauto].
        rewrite <- app_assoc. do 2 f_equal. rewrite update_none_filter.
        assert (G : forall w', (forall e, In e w' -> In e w) ->
          flat_map (fun e : node * option (list Pt) => ev (fst e) (actv (map fst (filter (fun e : node * option (list Pt) => negb (withinb d (fst n) (fst (fst e)))) w)) (fst e) (snd e)))
            (filter (fun e : node * option (list Pt) => negb (withinb d (fst n) (fst (fst e)))) w') =
          flat_map (fun e : node * option (list Pt) => ev (fst e) (actv (n :: map fst w) (fst e) (snd e))) w').
        2:{ apply G. auto. }
        induction w' as [|(n', ps') w' IHw]; intros Hin; [reflexivity|].
        assert (I : In (n', ps') w) by (apply Hin; left; auto).
        cbn [filter]. cbn [fst]. destruct (withinb d (fst n) (fst n')) eqn:B; cbn [negb flat_map fst snd].
        + destruct (IN n' ps' I B) as (_ & ->). unfold step. rewrite Eq, actv_empty. cbn [ev app].
          apply IHw. intros; apply Hin; right; auto.
        + rewrite IHw by (intros; apply Hin; right; auto). f_equal.
          rewrite actv_not_within by auto. f_equal.
          assert (MF : forall w0 : work Pt, map fst (filter (fun e : node * option (list Pt) => negb (withinb d (fst n) (fst (fst e)))) w0) =
                       filter (fun m => negb (withinb d (fst n) (fst m))) (map fst w0)).
          { induction w0 as [|e0 w0 IH0]; [reflexivity|]. cbn [filter map]. destruct (withinb d (fst n) (fst (fst e0))); cbn; rewrite IH0; reflexivity. }
          rewrite MF. apply actv_filter. intros m Im Hm. apply negb_false_iff in Hm.
          destruct (strictb d (fst m) (fst n')) eqn:X; [|auto]. apply strict_within, withinb_iff in X.
          apply withinb_iff in Hm. pose proof (within_trans d _ _ _ Hm X) as Y. apply withinb_iff in Y. congruence. }
    destruct ps as [[|p l]|]; [|apply MAIN; discriminate|apply MAIN; discriminate].
    rewrite IH; [|auto|eapply winv_tail; eauto]. cbn [ev app]. f_equal.
    apply flat_map_ext_in. intros (n', ps') I. cbn [fst snd]. f_equal.
    destruct (withinb d (fst n) (fst n')) eqn:B.
    - destruct (IN n' ps' I B) as (-> & ->). unfold step. cbn [filter]. destruct (okq n); rewrite !actv_empty; auto.
    - rewrite actv_not_within by auto. reflexivity.
  Qed.

  (** closed forms of the active points *)
  Lemma actv_none M n : actv M n None =
    if forallb (fun m => implb (strictb d (fst m) (fst n)) (okq m)) M then None else Some [].
  Proof.
    induction M as [|m M IH]; [reflexivity|]. rewrite actv_cons. cbn [forallb].
    destruct (strictb d (fst m) (fst n)); cbn [implb]; [|exact IH].
    unfold step. destruct (okq m); cbn [andb]; [exact IH|apply actv_empty].
  Qed.
  Lemma actv_some M n : forall l, actv M n (Some l) =
    Some (filter (fun p => forallb (fun m => implb (strictb d (fst m) (fst n)) (okq m && okp m p)) M) l).
  Proof.
    induction M as [|m M IH]; intros l.
    - cbn. f_equal. symmetry. apply filter_all. auto.
    - rewrite actv_cons. cbn [forallb]. destruct (strictb d (fst m) (fst n)); cbn [implb].
      + unfold step. destruct (okq m) eqn:Eq; cbn [andb].
        * rewrite IH, filter_filter. f_equal. apply filter_ext. intros p. apply andb_comm.
        * rewrite actv_empty. f_equal. symmetry. apply filter_nil. auto.
      + apply IH.
  Qed.
End Pure.
