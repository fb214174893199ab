(** * Property theorems C68, C69: renumbered and reduced connectivities

    C68: p4est_connectivity_permute.  C69: p4est_connectivity_reduce. *)

From Coq Require Import ZArith List Bool Lia ZifyBool.
From Verif Require Import Quad Spec Morton Neighbor Transform Partition Conn ConnLemmas ConnBounds PropertiesConn CompareLemmas Permute PermuteLemmas PermuteArray.
Import ListNotations.
Open Scope Z_scope.

Lemma id_identity n perm : is_perm n perm -> (forall t, 0 <= t < n -> sigma perm t = t) -> identity perm = true.
Proof.
  intros P H. unfold identity. apply forallb_forall. intros (x & t) I. cbn.
  assert (G : forall (l : list Z) a, In (x, t) (combine l (map Z.of_nat (seq a (length l)))) -> Z.of_nat a <= t /\ zget l (t - Z.of_nat a) = Some x).
  { clear. induction l as [|y l IH]; intros a I; [destruct I|]. cbn in I. destruct I as [E|I].
    - injection E as <- <-. split; [lia|]. rewrite Z.sub_diag. reflexivity.
    - apply IH in I. destruct I as (A & B). split; [lia|]. rewrite zg in B |- * by lia.
      replace (Z.to_nat (t - Z.of_nat a)) with (S (Z.to_nat (t - Z.of_nat (S a)))) by lia. exact B. }
  apply G in I. destruct I as (_ & I). rewrite Z.sub_0_r in I. pose proof (zget_range _ _ _ I) as Rt.
  assert (Rn : 0 <= t < n) by (destruct P as (L & _); lia). specialize (H t Rn). unfold sigma in H. rewrite I in H. lia.
Qed.

Lemma permute_renumbers d c inperm flag : conn_is_valid d c = Some true -> allocated d c -> is_perm (c_nt c) inperm ->
  0 < c_nv c \/ identity inperm = true ->
  exists c' perm, permute d c inperm flag = Some c' /\ is_perm (c_nt c) perm /\ renumbered d (sigma perm) c c' /\ c_tta c' = c_tta c /\
    (if flag then perm = inperm else forall t, 0 <= t < c_nt c -> sigma perm (sigma inperm t) = t /\ sigma inperm (sigma perm t) = t).
Proof.
  intros V AL PI NV. destruct AL as (P0 & P1 & P2 & P3 & ATV & AT & AF & AE & AC & ACC).
  assert (PM : exists perm, (if flag then Some inperm else scatter inperm 0 (repeat (-1) (Z.to_nat (c_nt c)))) = Some perm /\ is_perm (c_nt c) perm /\
    (identity inperm = true -> identity perm = true) /\
    (if flag then perm = inperm else forall t, 0 <= t < c_nt c -> sigma perm (sigma inperm t) = t /\ sigma inperm (sigma perm t) = t)).
  { destruct flag; [exists inperm; auto|]. destruct (scatter_perm (c_nt c) inperm P1 PI) as (r & E & PR & I1 & I2). exists r.
    split; [auto|]. split; [auto|]. split; [|intros t Ht; auto]. intros ID. apply (id_identity (c_nt c)); [auto|]. intros t Ht.
    pose proof (identity_id inperm ID) as IT. rewrite <- (IT (sigma r t)). auto. }
  destruct PM as (perm & EP & PP & IDP & SP). 
  destruct (conn_valid_inv _ _ V) as (ne & nc & NE & NC & EV & CV & TV).
  assert (Fp : 0 < faces d) by (clear; destruct d; cbn; lia). assert (Cp : 0 < children d) by (clear; destruct d; cbn; lia).
  assert (TT : forall j, 0 <= j < Z.of_nat (Z.to_nat (faces d * c_nt c)) -> exists x, zget (c_ttt c) j = Some x /\ 0 <= x < c_nt c).
  { intros j Hj. assert (Hj' : 0 <= j / faces d < c_nt c) by (split; [apply Z.div_pos; lia|apply Z.div_lt_upper_bound; lia]).
    pose proof (Z.mod_pos_bound j _ Fp) as MB. destruct (valid_tree_inv _ _ _ _ _ (TV _ Hj')) as (FV & _).
    destruct (valid_face_true _ _ _ _ (FV _ MB)) as (nt & code & E1 & _ & Rn & _). exists nt.
    split; [|auto]. rewrite <- E1. f_equal. rewrite (Z.div_mod j (faces d)) at 1 by lia. lia. }
  destruct (rename_get _ _ PP _ _ TT) as (ttt & ET & LT & GT).
  assert (FN : 0 <= faces d * c_nt c) by (apply Z.mul_nonneg_nonneg; lia).
  destruct (permute_array_get _ _ PP (faces d) ttt Fp P1 ltac:(lia)) as (ttt' & ET' & LT' & GT').
  destruct (permute_array_get _ _ PP (faces d) (c_ttf c) Fp P1 ltac:(lia)) as (ttf' & EF' & LF' & GF').
  assert (XE : exists m ett, (if is3 d && (0 <? c_ne c) then zget (c_eoff c) (c_ne c) else Some 0) = Some m /\ rename perm (c_ett c) (Z.to_nat m) = Some ett /\
    (d = D3 -> 0 < c_ne c -> forall j, 0 <= j < ne -> zget ett j = option_map (sigma perm) (zget (c_ett c) j)) /\ (c_ne c <= 0 -> ett = c_ett c)).
  { destruct (is3 d && (0 <? c_ne c)) eqn:C3.
    - assert (D : d = D3) by (clear - C3; destruct d; [discriminate|auto]). exists ne. 
      destruct (rename_get _ _ PP (Z.to_nat ne) (c_ett c)) as (r & Er & _ & G).
      { intros j Hj. destruct (valid_pair_inv _ _ _ _ _ (EV D j ltac:(lia))) as (t & x & E1 & _ & R1 & _). eauto. }
      exists r. split; [auto|]. split; [auto|]. split; [intros _ _ j Hj; apply G; lia|lia].
    - exists 0, (c_ett c). split; [auto|]. split; [destruct (c_ett c); reflexivity|]. split; [|auto]. intros D PE. rewrite D in C3. cbn in C3. lia. }
  destruct XE as (mE & ett & EM & EE & GE & GE0).
  assert (XC : exists m ctt, (if 0 <? c_nc c then zget (c_coff c) (c_nc c) else Some 0) = Some m /\ rename perm (c_ctt c) (Z.to_nat m) = Some ctt /\
    (0 < c_nc c -> forall j, 0 <= j < nc -> zget ctt j = option_map (sigma perm) (zget (c_ctt c) j)) /\ (c_nc c <= 0 -> ctt = c_ctt c)).
  { destruct (0 <? c_nc c) eqn:C3.
    - exists nc. destruct (rename_get _ _ PP (Z.to_nat nc) (c_ctt c)) as (r & Er & _ & G).
      { intros j Hj. destruct (valid_pair_inv _ _ _ _ _ (CV j ltac:(lia))) as (t & x & E1 & _ & R1 & _). eauto. }
      exists r. split; [auto|]. split; [auto|]. split; [intros _ j Hj; apply G; lia|lia].
    - exists 0, (c_ctt c). split; [auto|]. split; [destruct (c_ctt c); reflexivity|]. split; [lia|auto]. }
  destruct XC as (mC & ctt & CM & CE & GC & GC0).
  assert (XV : exists ttv', (match c_ttv c with
             | None => if identity perm then Some None else None
             | Some l => match permute_array (children d) perm l with None => None | Some r => Some (Some r) end
             end) = Some ttv' /\ is_null ttv' = is_null (c_ttv c) /\
     forall t k, 0 <= t < c_nt c -> 0 <= k < children d -> oget ttv' (children d * sigma perm t + k) = oget (c_ttv c) (children d * t + k)).
  { destruct (Z_lt_ge_dec 0 (c_nv c)) as [PV|ZV].
    - destruct (ATV PV) as (l & -> & Ll). destruct (permute_array_get _ _ PP (children d) l Cp P1 ltac:(lia)) as (r & -> & _ & G).
      exists (Some r). split; [auto|]. split; [auto|]. exact G.
    - destruct NV as [NV|NV]; [lia|]. assert (TN : c_ttv c = None).
      { unfold conn_is_valid in V. apply with_true in V as (? & _ & V). apply with_true in V as (? & _ & V). apply andthen_true in V as (V & _).
        apply some_true in V. replace (c_nv c =? 0) with true in V by lia. destruct (c_ttv c); [|auto]. destruct (c_vertices c); discriminate V. }
      rewrite TN. rewrite IDP by auto. exists None. auto. }
  destruct XV as (ttv' & EV' & NV' & GV).
  assert (XTE : exists tte', permute_if (is3 d && (0 <? c_ne c)) (permute_array 12 perm (c_tte c)) (c_tte c) = Some tte' /\
    (d = D3 -> 0 < c_ne c -> forall t e, 0 <= t < c_nt c -> 0 <= e < 12 -> zget tte' (12 * sigma perm t + e) = zget (c_tte c) (12 * t + e))).
  { destruct (is3 d && (0 <? c_ne c)) eqn:C3; cbn [permute_if].
    - assert (D : d = D3) by (clear - C3; destruct d; [discriminate|auto]). destruct (AE D) as (_ & AE'). destruct (AE' ltac:(lia)) as (LE & _).
      destruct (permute_array_get _ _ PP 12 (c_tte c) ltac:(lia) P1 ltac:(lia)) as (r & -> & _ & G). exists r. auto.
    - exists (c_tte c). split; [auto|]. intros D PE. rewrite D in C3. cbn in C3. lia. }
  destruct XTE as (tte' & ETE & GTE).
  assert (XTC : exists ttc', permute_if (0 <? c_nc c) (permute_array (children d) perm (c_ttc c)) (c_ttc c) = Some ttc' /\
    (0 < c_nc c -> forall t k, 0 <= t < c_nt c -> 0 <= k < children d -> zget ttc' (children d * sigma perm t + k) = zget (c_ttc c) (children d * t + k))).
  { destruct (0 <? c_nc c) eqn:C3; cbn [permute_if].
    - destruct (ACC ltac:(lia)) as (LC & _).
      destruct (permute_array_get _ _ PP (children d) (c_ttc c) Cp P1 ltac:(lia)) as (r & -> & _ & G). exists r. auto.
    - exists (c_ttc c). split; [auto|]. lia. }
  destruct XTC as (ttc' & ETC & GTC).
  unfold permute. rewrite EP, EM, CM, ET, EE, CE, EV', ET', EF', ETE, ETC. eexists. exists perm. split; [reflexivity|]. split; [auto|].
  split; [|split; [reflexivity|auto]].
  constructor; cbn [c_nv c_nt c_ne c_nc c_vertices c_ttv c_attr c_tta c_ttt c_ttf c_tte c_eoff c_ett c_ete c_ttc c_coff c_ctt c_ctc]; auto.
  - intros t f Ht Hf. rewrite GT' by auto. apply GT. assert (faces d * (t + 1) <= faces d * c_nt c) by (apply Z.mul_le_mono_nonneg_l; lia). lia.
  - intros D PE n En j Hj. rewrite (NE D) in En. injection En as <-. apply GE; auto.
  - intros PE n En j Hj. rewrite NC in En. injection En as <-. apply GC; auto.
Qed.

(** ** C68 *)

(** For an accepted connectivity with vertices and a permutation of its trees (or without vertices
    and the identity), p4est_connectivity_permute gives a connectivity that is accepted, with the
    same number of trees; the tree t becomes the tree sg t, where the array says so in one of the
    two directions; its neighbors across faces, edges and corners are the renumbered former
    neighbors, with the same transformations, and it has the same vertices. *)
Theorem C68_permute : forall d c inperm current_to_new, conn_is_valid d c = Some true -> allocated d c -> is_perm (c_nt c) inperm ->
  0 < c_nv c \/ identity inperm = true ->
  exists c' sg, permute d c inperm current_to_new = Some c' /\ conn_is_valid d c' = Some true /\ c_nt c' = c_nt c /\
    c_vertices c' = c_vertices c /\
    (forall s, 0 <= s < c_nt c -> exists t, 0 <= t < c_nt c /\ sg t = s) /\
    forall t, 0 <= t < c_nt c -> 0 <= sg t < c_nt c /\
      (if current_to_new then zget inperm t = Some (sg t) else zget inperm (sg t) = Some t) /\
      (forall f r, 0 <= f < faces d -> find_face_transform d c t f = Some r ->
         find_face_transform d c' (sg t) f = Some (option_map (fun x => (sg (fst x), snd x)) r)) /\
      (forall e r, d = D3 -> 0 <= e < 12 -> find_edge_transform c t e = Some r ->
         find_edge_transform c' (sg t) e = Some (map (fun x => (sg (fst (fst x)), snd (fst x), snd x)) r)) /\
      (forall k r, 0 <= k < children d -> find_corner_transform d c t k = Some r ->
         find_corner_transform d c' (sg t) k = Some (map (fun x => (sg (fst x), snd x)) r)) /\
      (forall k v, 0 <= k < children d -> oget (c_ttv c) (children d * t + k) = Some v -> oget (c_ttv c') (children d * sg t + k) = Some v).
Proof.
  intros d c inperm flag V AL PI NV.
  assert (PE : 0 <= c_ne c) by apply AL. assert (PC : 0 <= c_nc c) by apply AL.
  destruct (permute_renumbers d c inperm flag V AL PI NV) as (c' & perm & E & PP & RN & _ & SP).
  pose proof (sigma_inj _ _ PP) as IJ. pose proof (sigma_rng _ _ PP) as RG.
  exists c', (sigma perm). split; [auto|]. split; [apply (valid_ren d (sigma perm) c c'); auto; apply (sigma_onto _ _ PP)|].
  split; [apply RN|]. split; [apply RN|]. split.
  { intros s Hs. destruct (sigma_onto _ _ PP s Hs) as (t & <-). exists t. split; [apply RG; auto|auto]. }
  intros t Ht. split; [apply RG; auto|]. split.
  { destruct flag; [subst perm; apply (sigma_get _ _ PP); auto|]. destruct (SP t Ht) as (_ & S2).
    rewrite (sigma_get _ _ PI) by (apply RG; auto). rewrite S2. auto. }
  split; [|split; [|split]].
  - intros f r Hf F. rewrite (find_face_ren d _ c c' IJ RN t f Ht Hf), F. reflexivity.
  - intros e r D He F. rewrite (find_edge_ren d _ c c' IJ RN V PE t e D Ht He), F. reflexivity.
  - intros k r Hk F. rewrite (find_corner_ren d _ c c' IJ RN V PE PC t k Ht Hk), F. reflexivity.
  - intros k v Hk F. rewrite (r_ttv _ _ _ _ RN t k Ht Hk). auto.
Qed.
Print Assumptions C68_permute.

(** three trees in a row, with attributes of one byte *)
Definition row3 : conn :=
  mkconn 8 3 0 0 (Some (repeat 0 24)) (Some [0; 1; 4; 5; 1; 2; 5; 6; 2; 3; 6; 7]) 1 (Some [10; 20; 30])
         [0; 1; 0; 0; 0; 2; 1; 1; 1; 2; 2; 2] [0; 0; 2; 3; 1; 0; 2; 3; 1; 1; 2; 3] [] [] [] [] [] [0] [] [].
Lemma row3_ok : conn_is_valid D2 row3 = Some true /\ allocated D2 row3 /\ is_perm (c_nt row3) [2; 0; 1] /\ 0 < c_nv row3.
Proof.
  split; [vm_compute; reflexivity|]. split.
  { repeat split; cbn; try lia; try discriminate. intros _. eexists. split; reflexivity. }
  split; [|cbn; lia]. split; [reflexivity|]. split.
  - repeat constructor; cbn; intuition lia.
  - intros x. cbn. intuition lia.
Qed.
Example C68_example :
  (exists c', permute D2 row3 [2; 0; 1] true = Some c' /\ c_ttt c' = [2; 1; 0; 0; 0; 1; 1; 1; 2; 0; 2; 2] /\ c_ttv c' = Some [1; 2; 5; 6; 2; 3; 6; 7; 0; 1; 4; 5]) /\
  (exists c', permute D2 row3 [2; 0; 1] false = Some c' /\ c_ttv c' = Some [2; 3; 6; 7; 0; 1; 4; 5; 1; 2; 5; 6]).
Proof. split; eexists; (split; [vm_compute; reflexivity|]); repeat split; reflexivity. Qed.

(** The attributes of the trees (tree_to_attr) do not follow them: after the permutation the tree
    2, which was tree 0, has another attribute. *)
Theorem C68_attributes_refuted : exists c inperm c' t s, conn_is_valid D2 c = Some true /\ allocated D2 c /\ is_perm (c_nt c) inperm /\ c_attr c = 1 /\
  permute D2 c inperm true = Some c' /\ zget inperm t = Some s /\ oget (c_tta c') s <> oget (c_tta c) t.
Proof.
  destruct row3_ok as (V & A & P & _). destruct (permute D2 row3 [2; 0; 1] true) as [c'|] eqn:E; [|vm_compute in E; discriminate].
  exists row3, [2; 0; 1], c', 0, 2. split; [auto|]. split; [auto|]. split; [auto|]. split; [reflexivity|]. split; [auto|]. split; [reflexivity|].
  vm_compute in E. injection E as <-. vm_compute. discriminate.
Qed.
Print Assumptions C68_attributes_refuted.

(** A connectivity without vertices, which p4est_connectivity_is_valid accepts, can not be
    permuted: the NULL array of vertices is read. *)
Theorem C68_no_vertices_refuted : exists c inperm, conn_is_valid D2 c = Some true /\ allocated D2 c /\ is_perm (c_nt c) inperm /\
  permute D2 c inperm true = None.
Proof.
  exists twisted, [1; 0]. split; [vm_compute; reflexivity|]. split.
  { repeat split; cbn; try lia; try discriminate. }
  split; [|vm_compute; reflexivity]. split; [reflexivity|]. split.
  - repeat constructor; cbn; intuition lia.
  - intros x. cbn. intuition lia.
Qed.
Print Assumptions C68_no_vertices_refuted.

(** ** C69 *)

(** The reduced connectivity is accepted and has no edges and corners; vertices, attributes and
    the transformations across faces are the same. *)
Theorem C69_reduce : forall d c, conn_is_valid d c = Some true -> allocated d c ->
  conn_is_valid d (reduce d c) = Some true /\ c_nt (reduce d c) = c_nt c /\ c_ne (reduce d c) = 0 /\ c_nc (reduce d c) = 0 /\
  c_vertices (reduce d c) = c_vertices c /\ c_ttv (reduce d c) = c_ttv c /\ c_attr (reduce d c) = c_attr c /\ c_tta (reduce d c) = c_tta c /\
  (forall t f, find_face_transform d (reduce d c) t f = find_face_transform d c t f) /\
  (forall t e, find_edge_transform (reduce d c) t e = Some []) /\
  (forall t k, find_corner_transform d (reduce d c) t k = Some []).
Proof.
  intros d c V AL. split; [|repeat split; reflexivity].
  destruct (conn_valid_inv _ _ V) as (ne & nc & _ & _ & _ & _ & TV). unfold conn_is_valid in V |- *.
  apply with_true in V as (x & _ & V). apply with_true in V as (y & _ & V). apply andthen_true in V as (A1 & V). apply andthen_true in V as (A2 & V).
  apply andthen_true in V as (_ & V). apply andthen_true in V as (_ & V). apply andthen_true in V as (A5 & V). apply andthen_true in V as (A6 & V).
  apply with_true. exists 0. split; [clear; destruct d; reflexivity|]. apply with_true. exists 0. split; [reflexivity|].
  apply andthen_true. split; [exact A1|]. apply andthen_true. split; [exact A2|].
  apply andthen_true. split; [clear; destruct d; reflexivity|]. apply andthen_true. split; [reflexivity|].
  apply andthen_true. split; [exact A5|]. apply andthen_true. split; [exact A6|].
  apply each_true. intros t Ht. cbn [reduce c_nt] in Ht. destruct (valid_tree_inv _ _ _ _ _ (TV t ltac:(lia))) as (FV & _).
  unfold valid_tree. cbn [reduce c_ne c_nc]. apply andthen_true. split.
  - apply each_true. intros f Hf. change (valid_face d (reduce d c) t f) with (valid_face d c t f). apply FV. clear - Hf. destruct d; cbn in *; lia.
  - apply andthen_true. split; [clear; destruct d; reflexivity|]. apply andthen_true. split; reflexivity.
Qed.
Print Assumptions C69_reduce.
Example C69_example : conn_is_valid D3 periodic3 = Some true /\ allocated D3 periodic3 /\
  find_corner_transform D3 periodic3 0 0 <> Some [] /\ conn_is_valid D3 (reduce D3 periodic3) = Some true.
Proof.
  split; [vm_compute; reflexivity|]. split; [repeat split; cbn; try lia; discriminate|].
  split; [vm_compute; discriminate|vm_compute; reflexivity].
Qed.
