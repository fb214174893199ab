(** * List lemmas: indexing, checked writes *)

From Coq Require Import ZArith List Bool Lia Arith.
From Verif Require Import Adapt.
Import ListNotations.

Lemma nth_skipn {A} (l : list A) : forall n k, nth_error (skipn n l) k = nth_error l (n + k).
Proof.
  induction l as [|x l IH]; intros n k; [destruct n, k; reflexivity|].
  destruct n; [reflexivity|]. cbn. apply IH.
Qed.
Lemma nth_firstn {A} (l : list A) : forall n k, (k < n)%nat -> nth_error (firstn n l) k = nth_error l k.
Proof.
  induction l as [|x l IH]; intros n k H; [destruct n, k; reflexivity|].
  destruct n; [lia|]. destruct k; [reflexivity|]. cbn. apply IH. lia.
Qed.
Lemma list_ext {A} (l : list A) : forall l', (forall i, nth_error l i = nth_error l' i) -> l = l'.
Proof.
  induction l as [|x l IH]; intros l' H.
  - destruct l'; [reflexivity|]. specialize (H 0%nat). discriminate.
  - destruct l' as [|y l']; [specialize (H 0%nat); discriminate|].
    pose proof (H 0%nat) as E. inversion E; subst. f_equal. apply IH. intros i. apply (H (S i)).
Qed.
Lemma skipn_cons {A} (l : list A) n x : nth_error l n = Some x -> skipn n l = x :: skipn (S n) l.
Proof.
  revert n. induction l as [|y l IH]; intros n H; [destruct n; discriminate|].
  destruct n; [inversion H; reflexivity|]. cbn in H. cbn [skipn]. rewrite (IH n H). reflexivity.
Qed.
Lemma skipn_plus {A} (l : list A) : forall a n, skipn (a + n) l = skipn n (skipn a l).
Proof.
  induction l as [|x l IH]; intros a n; [destruct (a + n)%nat, n, a; reflexivity|].
  destruct a; [reflexivity|]. cbn [Nat.add skipn]. apply IH.
Qed.
Lemma firstn_S {A} (l : list A) n x : nth_error l n = Some x -> firstn (S n) l = firstn n l ++ [x].
Proof.
  revert n. induction l as [|y l IH]; intros n H; [destruct n; discriminate|].
  destruct n; [inversion H; reflexivity|]. cbn in H. cbn [firstn app]. f_equal. apply (IH n H).
Qed.
Lemma firstn_app_le {A} (l l' : list A) n : (n <= length l)%nat -> firstn n (l ++ l') = firstn n l.
Proof. intros H. rewrite firstn_app. replace (n - length l)%nat with 0%nat by lia. cbn. apply app_nil_r. Qed.

(** list with entry i replaced *)
Definition lset {A} (l : list A) (i : nat) (v : A) : list A := firstn i l ++ v :: skipn (S i) l.

Lemma aset_ok {A} (l : list A) : forall i v, (i < length l)%nat -> aset l i v = Some (lset l i v).
Proof.
  unfold lset. induction l as [|x l IH]; intros i v H; [cbn in H; lia|].
  destruct i; [reflexivity|]. cbn in H. cbn [aset]. rewrite IH by lia. reflexivity.
Qed.

Lemma nth_lset {A} (l : list A) i v j : (i < length l)%nat ->
  nth_error (lset l i v) j = if Nat.eqb j i then Some v else nth_error l j.
Proof.
  intros H. unfold lset. assert (E : length (firstn i l) = i) by (rewrite firstn_length; lia).
  destruct (Nat.eqb_spec j i) as [->|N].
  - rewrite nth_error_app2 by lia. rewrite E, Nat.sub_diag. reflexivity.
  - destruct (Nat.lt_ge_cases j i).
    + rewrite nth_error_app1 by lia. apply nth_firstn. lia.
    + rewrite nth_error_app2 by lia. rewrite E. replace (j - i)%nat with (S (j - i - 1)) by lia. cbn [nth_error].
      rewrite nth_skipn. f_equal. lia.
Qed.

Lemma length_lset {A} (l : list A) i v : (i < length l)%nat -> length (lset l i v) = length l.
Proof. intros H. unfold lset. rewrite app_length, firstn_length. cbn [length]. rewrite skipn_length. lia. Qed.

Lemma firstn_lset {A} (l : list A) i v : (i < length l)%nat -> firstn (S i) (lset l i v) = firstn i l ++ [v].
Proof.
  intros H. rewrite (firstn_S _ _ v) by (rewrite nth_lset by auto; rewrite Nat.eqb_refl; reflexivity).
  f_equal. apply list_ext. intros j. destruct (Nat.lt_ge_cases j i).
  - rewrite !nth_firstn by auto. rewrite nth_lset by auto. destruct (Nat.eqb_spec j i); [lia|reflexivity].
  - rewrite !(proj2 (nth_error_None _ _)); auto; rewrite firstn_length; lia.
Qed.

Lemma aget_map {A} (l : list A) i : aget (map Some l) i = nth_error l i.
Proof. unfold aget. rewrite nth_error_map. destruct (nth_error l i); reflexivity. Qed.

Lemma all_init_map {D} (l : list (leaf D)) : all_init D (map Some l) = Some l.
Proof. induction l as [|x l IH]; [reflexivity|]. cbn. rewrite IH. reflexivity. Qed.
