(** * Neighbor transforms across faces, one by one, for C75 *)

From Coq Require Import ZArith List Bool Lia ZifyBool.
From Verif Require Import Quad Spec ZBits Interval QuadLemmas Transform PropertiesTransform Conn ConnLemmas Canon CanonLemmas CanonConn PropertiesConn PropertiesCanon NtQuad PropertiesNtQuad.
Import ListNotations.
Open Scope Z_scope.
Definition ranges (d : dim) : list (Z * Z * Z) := flat_map (fun f => flat_map (fun g => map (fun o => (f, g, o)) (match d with D2 => [0; 1] | D3 => [0; 1; 2; 3] end)) (match d with D2 => [0;1;2;3] | D3 => [0;1;2;3;4;5] end)) (match d with D2 => [0;1;2;3] | D3 => [0;1;2;3;4;5] end).
Lemma in_ranges d f g o : 0 <= f < faces d -> 0 <= g < faces d -> 0 <= o < half d -> In (f, g, o) (ranges d).
Proof.
  intros F G O. unfold ranges. apply in_flat_map. exists f. split; [destruct d; cbn in *; lia|]. apply in_flat_map. exists g. split; [destruct d; cbn in *; lia|]. apply in_map. destruct d; cbn in *; lia.
Qed.
Definition agree (d : dim) (f g o : Z) : Prop := forall t x y z h l, 0 < h <= 2 ^ 30 -> QLEN l = h -> l <> MAXLEVEL -> (d = D2 -> z = 0) ->
  nt_quadrant d (with_maps CFace t f g (face_nt d (expand_face_transform d f g o))) (mkq x y z l) = transform_face d (mkq x y z l) (expand_face_transform d f g o).
Ltac one := intros t x y z h l H E L ZZ; unfold nt_quadrant, transform_face; cbn [ql]; rewrite E; 
  match goal with |- context [expand_face_transform ?d ?f ?g ?o] => let v := eval vm_compute in (expand_face_transform d f g o) in change (expand_face_transform d f g o) with v end;
  replace (l =? MAXLEVEL) with false by (symmetry; apply Z.eqb_neq; exact L);
  match goal with |- context [face_nt ?d ?f] => let v := eval vm_compute in (face_nt d f) in change (face_nt d f) with v end;
  rewrite (i32_id (ROOT_LEN + (ROOT_LEN + - h))) by (change ROOT_LEN with (2 ^ 30); lia);
  unfold with_maps, vquad, qvec; 
  cbn [fst snd n_sign n_perm n_oself n_oneigh qx qy qz ql axes fold_left vget vset Z.eqb Pos.eqb my0 my1 my2 tg0 tg1 tg2 er0 er1 er2 is3];
  change ROOT_LEN with 1073741824; repeat match goal with |- mkq _ _ _ _ = mkq _ _ _ _ => f_equal end; try reflexivity; try (f_equal; lia).
Lemma agree2 : Forall (fun x => agree D2 (fst (fst x)) (snd (fst x)) (snd x)) (ranges D2).
Proof. unfold ranges. cbn [flat_map map app]. repeat (apply Forall_cons; [cbn [fst snd]; one|]). apply Forall_nil. Qed.
Lemma agree3 : Forall (fun x => agree D3 (fst (fst x)) (snd (fst x)) (snd x)) (ranges D3).
Proof. unfold ranges. cbn [flat_map map app]. repeat (apply Forall_cons; [cbn [fst snd]; one|]). apply Forall_nil. Qed.
