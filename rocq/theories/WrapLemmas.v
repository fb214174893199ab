(** * Lemmas on the wrap model *)

From Coq Require Import ZArith List Bool Lia Arith ZifyBool.
From Verif Require Import Quad Spec Interval QuadLemmas Search Adapt AdaptSpec ListLemmas RefineLemmas RefineProps CoarsenProps PropertiesRefine PropertiesCoarsen Tiles Partition PartLemmas PartTrees PartRecv PartGlue PartFinal PartShip Comm CommLemmas OwnerLemmas.
From Verif Require Import Weighted Forest ForestSpec ForestLemmas ForestAdapt RankWalk Checksum Wrap.
Import ListNotations.
Open Scope Z_scope.

(** ** Arrays of bytes *)
Lemma aset_mid {A} (a b : list A) x v : aset (a ++ x :: b) (length a) v = Some (a ++ v :: b).
Proof. induction a as [|y a IH]; [reflexivity|]. cbn [length app aset]. rewrite IH. reflexivity. Qed.
Lemma get8_mid a x b i : i = Z.of_nat (length a) -> get8 (a ++ x :: b) i = (x, false).
Proof. intros ->. unfold get8. replace (0 <=? Z.of_nat (length a)) with true by lia. rewrite Nat2Z.id, nth_error_app2, Nat.sub_diag by lia. reflexivity. Qed.
Lemma set8_mid a x b i v : i = Z.of_nat (length a) -> set8 (a ++ x :: b) i v = (a ++ v :: b, false).
Proof. intros ->. unfold set8. replace (0 <=? Z.of_nat (length a)) with true by lia. rewrite Nat2Z.id, aset_mid. reflexivity. Qed.
Lemma fill_spec flag pos : forall n k a b, pos + k = Z.of_nat (length a) -> (n <= length b)%nat -> fill_flags n k pos flag (a ++ b) = (a ++ repeat flag n ++ skipn n b, false).
Proof.
  induction n as [|n IH]; intros k a b H L; [reflexivity|]. destruct b as [|x b]; [cbn in L; lia|]. cbn [length] in L. cbn [fill_flags]. rewrite set8_mid by exact H.
  replace (a ++ flag :: b) with ((a ++ [flag]) ++ b) by (rewrite <- app_assoc; reflexivity). rewrite IH by (rewrite ?app_length; cbn [length]; lia). rewrite <- app_assoc. cbn [orb repeat app skipn]. reflexivity.
Qed.
Lemma repeat_snoc {A} (x : A) n l : repeat x n ++ x :: l = repeat x (S n) ++ l.
Proof. induction n as [|n IH]; [reflexivity|]. cbn [repeat app]. f_equal. exact IH. Qed.

Definition mark_ok (m : Z) : Prop := m = 0 \/ m = 1 \/ m = 2.
(** the number of marks for refinement *)
Definition count1 (l : list Z) : nat := length (filter (fun m => m =? 1) l).
Lemma count1_cons m l : count1 (m :: l) = ((if (m =? 1)%Z then 1 else 0) + count1 l)%nat.
Proof. unfold count1. cbn [filter]. destruct (m =? 1); reflexivity. Qed.

Lemma children_n d : children d = Z.of_nat (childrenn d).
Proof. destruct d; reflexivity. Qed.
Lemma childrenv_length d q : length (childrenv d q) = childrenn d.
Proof. destruct d; reflexivity. Qed.

Section WL.
  Variable d : dim.
  Variables (delay : Z) (affect : bool).
  Local Notation leaf := (quad * Z)%type.
  Local Notation CH := (childrenn d).

  Definition tick (v : Z) : Z := if negb (delay =? 0) && (0 <=? v) then v + 1 else v.

  (** a leaf with its mark after refinement *)
  Definition refined1 (x : (Z * leaf) * Z) : list ((Z * leaf) * Z) :=
    let '((t, (q, v)), m) := x in
    if (m =? 1) && (ql q <? 29) then map (fun c => ((t, (c, 0)), 0)) (childrenv d q)
    else [((t, (q, tick v)), if m =? 2 then 2 else 0)].

  Lemma walk_keep (s : wrap) (l : list leaf) : walk (fun (s : wrap) (lf : leaf) => (s, [lf])) s l = (s, l).
  Proof. induction l as [|x l IH]; [reflexivity|]. cbn [walk]. rewrite IH. reflexivity. Qed.
  Lemma walk_init (s : wrap) t l : walk (fun s q => let (s', v) := init_null s t q in (s', [(q, v)])) s l = (s, map (fun q => (q, 0)) l).
  Proof. induction l as [|x l IH]; [reflexivity|]. cbn [walk]. change (init_null s t x) with (s, 0). cbv beta iota. rewrite IH. reflexivity. Qed.
  Lemma rezip_zero (cs : list quad) : rezip Z (map (fun q => (q, 0)) cs) (if delay =? 0 then map snd (map (fun q : quad => (q, 0)) cs) else map (fun _ => 0) (map (fun q : quad => (q, 0)) cs)) = map (fun q => (q, 0)) cs.
  Proof. replace (if delay =? 0 then _ else _) with (map (fun _ : quad => 0) cs) by (destruct (delay =? 0); rewrite map_map; reflexivity). induction cs as [|c cs IH]; [reflexivity|]. cbn [map rezip]. rewrite IH. reflexivity. Qed.
  Lemma children_seq q : map (fun i => child d q (Z.of_nat i)) (seq 0 CH) = childrenv d q.
  Proof. rewrite childrenv_child. destruct d; reflexivity. Qed.

  (** refinement of one leaf *)
  Lemma visit_leaf t q v m i M wr f refs r : mark_ok m -> Z.of_nat (length wr) = Z.of_nat i + (children d - 1) * r ->
    (1 + (CH - 1) * (if (m =? 1)%Z then 1 else 0) <= length f)%nat ->
    exists r', 
    tvisit d wrap Z init_null (refine_callback d delay) (Some (replace_on_refine d delay)) false (-1) (mkw (repeat 0 i ++ m :: M) (wr ++ f) refs (Z.of_nat i) r false) (t, (q, v)) =
      (mkw (repeat 0 (S i) ++ M) ((wr ++ map snd (refined1 ((t, (q, v)), m))) ++ skipn (length (refined1 ((t, (q, v)), m))) f) refs (Z.of_nat (S i)) r' false,
       map fst (refined1 ((t, (q, v)), m))) /\
    Z.of_nat (length (wr ++ map snd (refined1 ((t, (q, v)), m)))) = Z.of_nat (S i) + (children d - 1) * r'.
  Proof.
    intros HM HL HF. destruct f as [|f0 f]; [exfalso; clear - HF; destruct (m =? 1), d; cbn in HF; lia|]. unfold tvisit. cbn [fst snd visit]. cbn [andb negb]. unfold refine_callback at 1.
    cbn [w_inside w_flags w_temp w_refines w_replaced w_bad]. rewrite get8_mid by (rewrite repeat_length; reflexivity). rewrite set8_mid by (rewrite repeat_length; reflexivity). rewrite set8_mid by lia. cbn [orb].
    rewrite repeat_snoc. fold (tick v). change (allowed (-1)) with 29.
    assert (Y : negb (Z.land m REFINE =? 0) = (m =? 1)) by (destruct HM as [->|[->| ->]]; reflexivity). rewrite Y. unfold refined1. destruct ((m =? 1) && (ql q <? 29)) eqn:EY.
    - apply andb_prop in EY. destruct EY as (E1 & _). rewrite E1 in HF. apply Z.eqb_eq in E1. subst m. change (Z.ldiff 1 REFINE) with 0. cbn [length] in HF.
      unfold make_children. rewrite walk_init. cbn [fst snd]. unfold replace_on_refine at 1. cbn [w_inside w_flags w_temp w_refines w_replaced w_bad].
      rewrite get8_mid by lia. replace (wr ++ 0 :: f) with ((wr ++ [0]) ++ f) by (rewrite <- app_assoc; reflexivity). rewrite fill_spec by (rewrite ?app_length; cbn [length]; lia). cbn [orb].
      rewrite children_seq, rezip_zero, walk_keep. exists (r + 1). rewrite !map_map. cbn [fst snd]. rewrite map_length, childrenv_length, !app_length, map_length, childrenv_length. split.
      + apply pair_equal_spec. split; [|reflexivity]. replace (map (fun _ : quad => 0) (childrenv d q)) with (0 :: repeat 0 (CH - 1)) by (destruct d; reflexivity). replace (skipn CH (f0 :: f)) with (skipn (CH - 1) f) by (destruct d; reflexivity).
        rewrite <- !app_assoc. cbn [app]. replace (Z.of_nat i + 1) with (Z.of_nat (S i)) by lia. reflexivity.
      + rewrite children_n in *. lia.
    - exists r. cbn [map fst snd length skipn]. split.
      + apply pair_equal_spec. split; [|reflexivity]. rewrite <- app_assoc. cbn [app]. replace (Z.ldiff m REFINE) with (if m =? 2 then 2 else 0) by (destruct HM as [->|[->| ->]]; reflexivity). replace (Z.of_nat i + 1) with (Z.of_nat (S i)) by lia. reflexivity.
      + rewrite app_length. cbn [length]. lia.
  Qed.

  Lemma refined1_length x : mark_ok (snd x) -> (length (refined1 x) <= 1 + (CH - 1) * (if (snd x =? 1)%Z then 1 else 0))%nat.
  Proof. destruct x as ((t, (q, v)), m). cbn [snd refined1]. intros _. destruct (m =? 1); cbn [andb]; [destruct (ql q <? 29)|]; rewrite ?map_length, ?childrenv_length; cbn [length]; lia. Qed.

  Lemma refine_walk refs : forall L M i wr f r, length L = length M -> Forall mark_ok M -> Z.of_nat (length wr) = Z.of_nat i + (children d - 1) * r ->
    (length M + (CH - 1) * count1 M <= length f)%nat ->
    exists r' f',
    walk (tvisit d wrap Z init_null (refine_callback d delay) (Some (replace_on_refine d delay)) false (-1)) (mkw (repeat 0 i ++ M) (wr ++ f) refs (Z.of_nat i) r false) L =
      (mkw (repeat 0 (i + length M)) (wr ++ map snd (flat_map refined1 (combine L M)) ++ f') refs (Z.of_nat (i + length M)) r' false, map fst (flat_map refined1 (combine L M))).
  Proof.
    induction L as [|(t, (q, v)) L IH]; intros [|m M] i wr f r LE FM HL HF; try discriminate.
    - exists r, f. cbn [walk combine flat_map map length app]. rewrite app_nil_r, Nat.add_0_r. reflexivity.
    - inversion FM as [|? ? HM FM']; subst. rewrite count1_cons, Nat.mul_add_distr_l in HF. cbn [length] in HF, LE. pose proof (Nat.le_0_l ((CH - 1) * count1 M)) as CN.
      destruct (visit_leaf t q v m i M wr f refs r HM HL ltac:(destruct (m =? 1); lia)) as (r1 & E1 & L1).
      pose proof (refined1_length ((t, (q, v)), m) HM) as RL. cbn [snd] in RL.
      destruct (IH M (S i) (wr ++ map snd (refined1 ((t, (q, v)), m))) (skipn (length (refined1 ((t, (q, v)), m))) f) r1) as (r2 & f2 & E2); [lia|exact FM'|exact L1|rewrite skipn_length; destruct (m =? 1); lia|].
      exists r2, f2. cbn [walk combine flat_map]. rewrite E1, E2. rewrite !map_app. cbn [length]. replace (i + S (length M))%nat with (S i + length M)%nat by lia. rewrite <- !app_assoc. reflexivity.
  Qed.

  (** ** Coarsening *)
  Definition too_recent (v : Z) : bool := negb (delay =? 0) && (0 <=? v) && (v <=? delay).
  Definition ok1 (x : leaf * Z) : bool := (snd x =? 2) && negb (too_recent (snd (fst x))).
  Definition newv : Z := if delay =? 0 then 0 else if affect then 0 else -1.

  Fixpoint squeeze (n : nat) (l : list (leaf * Z)) : list leaf :=
    match n, l with
    | S n', c0 :: l' =>
      let fam := firstn CH l in
      if familyb d (fst (fst c0)) (map (fun x => fst (fst x)) fam) && forallb ok1 fam then (parent d (fst (fst c0)), newv) :: squeeze n' (skipn CH l)
      else fst c0 :: squeeze n' l'
    | _, _ => []
    end.

  Lemma may_spec : forall fam pre post i, i = Z.of_nat (length pre) -> Forall (fun x => snd x = 0 \/ snd x = 2) fam ->
    may_coarsen delay (pre ++ map snd fam ++ post) i (map fst fam) = (forallb ok1 fam, false).
  Proof.
    induction fam as [|((q, v), m) fam IH]; intros pre post i Hi F; [reflexivity|]. inversion F as [|? ? F1 F2]; subst. cbn [map may_coarsen forallb fst snd app]. rewrite get8_mid by reflexivity.
    unfold ok1 at 1. cbn [fst snd] in *. fold (too_recent v). destruct F1 as [->| ->]; [reflexivity|]. change (2 =? 2) with true. change (Z.land 2 COARSEN =? 0) with false. cbn [andb]. cbv iota.
    destruct (too_recent v); [reflexivity|]. cbn [negb].
    replace (pre ++ 2 :: map snd fam ++ post) with ((pre ++ [2]) ++ map snd fam ++ post) by (rewrite <- app_assoc; reflexivity). rewrite IH; [|rewrite app_length; cbn [length]; lia|exact F2]. reflexivity.
  Qed.
  Lemma rezip_self (l : list leaf) : rezip Z l (map snd l) = l.
  Proof. induction l as [|(q, v) l IH]; [reflexivity|]. cbn [map rezip snd]. rewrite IH. reflexivity. Qed.

  Lemma callback_family s t q : length q = CH -> coarsen_callback d delay s t q =
    (let (yes, b) := may_coarsen delay (w_temp s) (w_inside s) q in
      (if yes then mkw (w_flags s) (w_temp s) (w_refines s) (w_inside s + children d) (w_replaced s + 1) (w_bad s || b)
       else mkw (w_flags s) (w_temp s) (w_refines s) (w_inside s + 1) (w_replaced s) (w_bad s || b),
       map snd q, yes)).
  Proof. intros L. destruct q as [|a [|b q]]; [destruct d; discriminate L..|]. reflexivity. Qed.
  Local Notation crep := (if delay =? 0 then None else Some (replace_on_coarsen affect)).
  Lemma pass_spec fl refs t : forall n l pre post i r, (length l <= n)%nat -> i = Z.of_nat (length pre) -> Forall (fun x => snd x = 0 \/ snd x = 2) l ->
    exists r', one_pass d wrap Z init_null (coarsen_callback d delay) crep true t n (mkw fl (pre ++ map snd l ++ post) refs i r false) (map fst l) =
      (mkw fl (pre ++ map snd l ++ post) refs (i + Z.of_nat (length l)) r' false, squeeze n l).
  Proof.
    induction n as [|n IH]; intros l pre post i r HL HI F.
    - destruct l; [|cbn in HL; lia]. exists r. cbn [one_pass squeeze length]. replace (i + Z.of_nat 0) with i by lia. reflexivity.
    - destruct l as [|x l']; [exists r; cbn [one_pass squeeze length map]; replace (i + Z.of_nat 0) with i by lia; reflexivity|].
      cbn [length] in HL. set (l := x :: l') in *.
      assert (SQ : squeeze (S n) l = if familyb d (fst (fst x)) (map (fun x => fst (fst x)) (firstn CH l)) && forallb ok1 (firstn CH l) then (parent d (fst (fst x)), newv) :: squeeze n (skipn CH l) else fst x :: squeeze n l') by reflexivity.
      rewrite SQ. clear SQ. cbn [one_pass]. unfold l at 1 2. cbn [map]. fold l. change (fst x :: map fst l') with (map fst l). rewrite firstn_map, map_map.
      destruct (familyb d (fst (fst x)) (map (fun x0 => fst (fst x0)) (firstn CH l))) eqn:EF.
      + assert (FL : length (firstn CH l) = CH).
        { destruct (Nat.lt_ge_cases (length l) CH) as [C|C]; [|apply firstn_length_le, C]. rewrite familyb_short in EF; [discriminate|]. rewrite map_length, firstn_length. lia. }
        assert (MS : may_coarsen delay (pre ++ map snd l ++ post) i (map fst (firstn CH l)) = (forallb ok1 (firstn CH l), false)).
        { rewrite <- (firstn_skipn CH l) at 1. rewrite map_app, <- app_assoc. apply may_spec; [exact HI|]. rewrite <- (firstn_skipn CH l) in F. apply Forall_app in F. apply F. }
        rewrite (callback_family _ t (map fst (firstn CH l))) by (rewrite map_length; exact FL). cbn [w_inside w_flags w_temp w_refines w_replaced w_bad]. rewrite MS. cbn [orb andb].
        rewrite !rezip_self. destruct (forallb ok1 (firstn CH l)) eqn:EO.
        * assert (MP : make_parent d wrap Z init_null crep t (mkw fl (pre ++ map snd l ++ post) refs (i + children d) (r + 1) false) (map fst (firstn CH l)) (fst x) = (mkw fl (pre ++ map snd l ++ post) refs (i + children d) (r + 1) false, (parent d (fst (fst x)), newv))).
          { unfold make_parent, newv, init_null. destruct (delay =? 0); reflexivity. }
          rewrite MP. rewrite skipn_map.
          destruct (IH (skipn CH l) (pre ++ map snd (firstn CH l)) post (i + children d) (r + 1)) as (r' & E').
          { rewrite skipn_length. unfold l. cbn [length]. assert (0 < CH)%nat by (destruct d; cbn; lia). lia. }
          { rewrite app_length, map_length, FL, children_n. lia. }
          { rewrite <- (firstn_skipn CH l) in F. apply Forall_app in F. apply F. }
          exists r'. rewrite <- app_assoc in E'. replace (map snd (firstn CH l) ++ map snd (skipn CH l) ++ post) with (map snd l ++ post) in E' by (rewrite <- (firstn_skipn CH l) at 1; rewrite map_app, <- app_assoc; reflexivity).
          rewrite E'. f_equal. f_equal. rewrite skipn_length, children_n. assert (CH <= length l)%nat by (rewrite firstn_length in FL; lia). lia.
        * rewrite skipn_map, <- map_app, firstn_skipn. unfold l at 2. cbn [map].
          destruct (IH l' (pre ++ [snd x]) post (i + 1) r) as (r' & E'); [lia|rewrite app_length; cbn [length]; lia|inversion F; assumption|].
          exists r'. rewrite <- app_assoc in E'. cbn [app] in E'. unfold l. cbn [map app]. rewrite E'. cbn [length]. f_equal. f_equal. lia.
      + cbn [andb]. unfold ask_orphan, coarsen_callback at 1. cbn [w_inside w_flags w_temp w_refines w_replaced w_bad map].
        destruct (IH l' (pre ++ [snd x]) post (i + 1) r) as (r' & E'); [lia|rewrite app_length; cbn [length]; lia|inversion F; assumption|].
        exists r'. rewrite <- app_assoc in E'. cbn [app] in E'. unfold l. cbn [map app]. rewrite E'. cbn [length]. destruct (fst x) as (q, v). cbn [rezip snd app]. f_equal. f_equal. lia.
  Qed.

  (** ** All trees of a rank *)
  Definition untag (g : (Z * leaf) * Z) : leaf * Z := (snd (fst g), snd g).
  Definition of_tree (u : Z) (G : list ((Z * leaf) * Z)) : list (leaf * Z) := map untag (filter (fun g => fst (fst g) =? u) G).
  Lemma of_tree_app u G G' : of_tree u (G ++ G') = of_tree u G ++ of_tree u G'.
  Proof. unfold of_tree. rewrite filter_app, map_app. reflexivity. Qed.
  Lemma of_tree_all u G : (forall g, In g G -> fst (fst g) = u) -> of_tree u G = map untag G.
  Proof. intros H. unfold of_tree. f_equal. induction G as [|g G IH]; [reflexivity|]. cbn [filter]. rewrite (H g) by (left; reflexivity). rewrite Z.eqb_refl, IH; [reflexivity|]. intros; apply H; right; assumption. Qed.
  Lemma of_tree_none u G : (forall g, In g G -> fst (fst g) <> u) -> of_tree u G = [].
  Proof. intros H. unfold of_tree. induction G as [|g G IH]; [reflexivity|]. cbn [filter]. replace (fst (fst g) =? u) with false by (symmetry; apply Z.eqb_neq, H; left; reflexivity). apply IH. intros; apply H; right; assumption. Qed.

  Lemma passes_spec fl refs : forall n t f G pre post i r, map fst G = loc_from t n f -> Forall (fun g => snd g = 0 \/ snd g = 2) G -> i = Z.of_nat (length pre) ->
    exists r', passes d wrap Z init_null (coarsen_callback d delay) crep true n t (mkw fl (pre ++ map snd G ++ post) refs i r false) f =
      (mkw fl (pre ++ map snd G ++ post) refs (i + Z.of_nat (length G)) r' false, loc_from t n (fun u => squeeze (length (f u)) (of_tree u G))).
  Proof.
    induction n as [|n IH]; intros t f G pre post i r E F HI.
    - destruct G; [|discriminate]. exists r. cbn [passes loc_from length]. replace (i + Z.of_nat 0) with i by lia. reflexivity.
    - cbn [loc_from] in E. apply map_eq_app in E. destruct E as (G1 & G2 & -> & E1 & E2). apply Forall_app in F. destruct F as (F1 & F2).
      assert (L1 : forall g, In g G1 -> fst (fst g) = t) by (intros g I; apply (in_map fst) in I; rewrite E1 in I; apply in_map_iff in I; destruct I as (x & <- & _); reflexivity).
      assert (L2 : forall g, In g G2 -> t + 1 <= fst (fst g)) by (intros g I; apply (in_map fst) in I; rewrite E2 in I; apply loc_from_labels in I; lia).
      assert (M1 : map fst (map untag G1) = f t). { rewrite map_map. unfold untag. cbn [fst]. rewrite <- (map_map fst snd), E1, map_map. apply map_id. }
      assert (LN : length (f t) = length (map untag G1)) by (rewrite <- M1, map_length; reflexivity).
      assert (MS : map snd (map untag G1) = map snd G1) by (rewrite map_map; reflexivity).
      destruct (pass_spec fl refs t (length (f t)) (map untag G1) pre (map snd G2 ++ post) i r) as (r1 & P1); [lia|exact HI|rewrite Forall_forall in *; intros x I; apply in_map_iff in I; destruct I as (g & <- & I); apply (F1 g I)|].
      rewrite M1, MS, map_length in P1.
      destruct (IH (t + 1) f G2 (pre ++ map snd G1) post (i + Z.of_nat (length G1)) r1 E2 F2) as (r2 & P2); [rewrite app_length, map_length; lia|].
      exists r2. cbn [passes]. rewrite map_app, <- !app_assoc. rewrite P1. rewrite <- !app_assoc in P2. rewrite P2. cbn [loc_from].
      rewrite of_tree_app, (of_tree_all t G1 L1), (of_tree_none t G2) by (intros g I; specialize (L2 g I); lia). rewrite app_nil_r.
      apply pair_equal_spec. split; [rewrite app_length; f_equal; lia|]. f_equal. apply loc_from_ext. intros u Hu. rewrite of_tree_app, (of_tree_none u G1) by (intros g I; rewrite (L1 g I); lia). reflexivity.
  Qed.
End WL.
