(** * Bytes, little-endian words, and reading from a byte stream

    A file image is a list of bytes (0..255).  Words are stored as the little-endian host does
    it (memory is written as it is: sc_io_sink_write).  The functions of libsc
    (sc_io_sink_write, sc_io_source_read) are not part of /repo; they are modelled by their
    contract: a write appends, a read returns the requested number of bytes or fails. *)

From Coq Require Import ZArith List Bool Lia ZifyBool.
Import ListNotations.
Open Scope Z_scope.

(** n bytes of the unsigned or signed number x *)
Fixpoint enc (n : nat) (x : Z) : list Z :=
  match n with O => [] | S n' => x mod 256 :: enc n' (x / 256) end.
Fixpoint dec (l : list Z) : Z := match l with [] => 0 | b :: l' => b + 256 * dec l' end.
(** reading n bytes as a signed number *)
Definition signed (n : nat) (x : Z) : Z := if x <? 256 ^ Z.of_nat n / 2 then x else x - 256 ^ Z.of_nat n.
Definition sdec (l : list Z) : Z := signed (length l) (dec l).

Fixpoint take (n : nat) (s : list Z) : option (list Z * list Z) :=
  match n with
  | O => Some ([], s)
  | S n' => match s with
            | [] => None
            | b :: s' => match take n' s' with None => None | Some (l, r) => Some (b :: l, r) end
            end
  end.
(** n words of k bytes each *)
Fixpoint take_words (k : nat) (conv : list Z -> Z) (n : nat) (s : list Z) : option (list Z * list Z) :=
  match n with
  | O => Some ([], s)
  | S n' => match take k s with
            | None => None
            | Some (w, s') => match take_words k conv n' s' with None => None | Some (l, r) => Some (conv w :: l, r) end
            end
  end.

Definition u8 (x : Z) : Prop := 0 <= x < 256.
Definition u64 (x : Z) : Prop := 0 <= x < 2 ^ 64.
Definition i32 (x : Z) : Prop := - 2 ^ 31 <= x < 2 ^ 31.
Definition i8 (x : Z) : Prop := -128 <= x < 128.

Lemma enc_length n : forall x, length (enc n x) = n.
Proof. induction n as [|n IH]; intros x; cbn; [|rewrite IH]; reflexivity. Qed.
Lemma enc_bytes n : forall x, Forall u8 (enc n x).
Proof.
  induction n as [|n IH]; intros x; cbn; constructor; [|apply IH]. unfold u8. apply Z.mod_pos_bound. lia.
Qed.
Lemma dec_enc n : forall x, dec (enc n x) = x mod 256 ^ Z.of_nat n.
Proof.
  induction n as [|n IH]; intros x; cbn [enc dec].
  - cbn. rewrite Z.mod_1_r. reflexivity.
  - rewrite IH. rewrite Nat2Z.inj_succ, Z.pow_succ_r by lia. rewrite Z.rem_mul_r by lia. lia.
Qed.
Lemma dec_enc_u n x : 0 <= x < 256 ^ Z.of_nat n -> dec (enc n x) = x.
Proof. intros H. rewrite dec_enc. apply Z.mod_small. auto. Qed.
Lemma sdec_enc n x : (0 < n)%nat -> - (256 ^ Z.of_nat n / 2) <= x < 256 ^ Z.of_nat n / 2 -> sdec (enc n x) = x.
Proof.
  intros Hn H. unfold sdec, signed. rewrite enc_length, dec_enc.
  assert (E : 256 ^ Z.of_nat n = 2 * (128 * 256 ^ (Z.of_nat n - 1))).
  { replace (Z.of_nat n) with (Z.succ (Z.of_nat n - 1)) at 1 by lia. rewrite Z.pow_succ_r by lia. lia. }
  assert (P : 0 < 256 ^ (Z.of_nat n - 1)) by (apply Z.pow_pos_nonneg; lia).
  rewrite E in *. rewrite (Z.mul_comm 2), Z.div_mul in * by lia. set (m := 128 * 256 ^ (Z.of_nat n - 1)) in *.
  destruct (Z.lt_ge_cases x 0) as [L|L].
  - replace (x mod (m * 2)) with (x + m * 2).
    + destruct (x + m * 2 <? m) eqn:B; lia.
    + apply Z.mod_unique with (q := -1); lia.
  - rewrite Z.mod_small by lia. destruct (x <? m) eqn:B; lia.
Qed.
Lemma dec_u64 x : u64 x -> dec (enc 8 x) = x.
Proof. intros H. apply dec_enc_u. exact H. Qed.
Lemma dec_i32 x : i32 x -> sdec (enc 4 x) = x.
Proof. intros H. apply sdec_enc; [lia|]. exact H. Qed.
Lemma dec_i8 x : i8 x -> sdec (enc 1 x) = x.
Proof. intros H. apply sdec_enc; [lia|]. exact H. Qed.
Lemma dec_u8 x : u8 x -> dec [x] = x.
Proof. cbn [dec]. lia. Qed.

Lemma take_app n : forall l s, length l = n -> take n (l ++ s) = Some (l, s).
Proof.
  induction n as [|n IH]; intros [|b l] s H; cbn [length] in H; try discriminate; cbn [take app]; [reflexivity|].
  rewrite IH; [reflexivity|lia].
Qed.
Lemma take_some n : forall s l r, take n s = Some (l, r) -> s = l ++ r /\ length l = n.
Proof.
  induction n as [|n IH]; intros s l r; cbn [take].
  - intros E. injection E as <- <-. auto.
  - destruct s as [|b s]; [discriminate|]. destruct (take n s) as [(l', r')|] eqn:E; [|discriminate]. intros F. injection F as <- <-.
    destruct (IH _ _ _ E) as (-> & <-). auto.
Qed.
Lemma take_none n : forall s, take n s = None <-> (length s < n)%nat.
Proof.
  induction n as [|n IH]; intros s; cbn [take].
  - split; [discriminate|lia].
  - destruct s as [|b s]; cbn [length]; [split; [lia|auto]|]. specialize (IH s).
    destruct (take n s) as [(l', r')|]; split; intros H; try discriminate; [|apply IH in H|apply IH]; try lia; auto.
    assert (X : (length s < n)%nat) by lia. apply IH in X. discriminate.
Qed.

Lemma take_words_app k conv (P : Z -> Prop) encf :
  (forall x, P x -> length (encf x) = k /\ conv (encf x) = x) ->
  forall xs s, Forall P xs -> take_words k conv (length xs) (flat_map encf xs ++ s) = Some (xs, s).
Proof.
  intros H. induction xs as [|x xs IH]; intros s F; cbn [length take_words flat_map app]; [reflexivity|].
  inversion F as [|? ? Px Fx]; subst. destruct (H x Px) as (L & C). rewrite <- app_assoc, (take_app k _ _ L), IH by auto.
  rewrite C. reflexivity.
Qed.
Lemma take_words_some k conv (P : Z -> Prop) :
  (forall w, length w = k -> P (conv w)) ->
  forall n s l r, take_words k conv n s = Some (l, r) -> length l = n /\ Forall P l.
Proof.
  intros H. induction n as [|n IH]; intros s l r; cbn [take_words].
  - intros E. injection E as <- _. auto.
  - destruct (take k s) as [(w, s')|] eqn:T; [|discriminate]. destruct (take_words k conv n s') as [(l', r')|] eqn:E; [|discriminate].
    intros F. injection F as <- _. destruct (IH _ _ _ E) as (<- & F). cbn [length]. split; [reflexivity|].
    constructor; [apply H; apply (take_some _ _ _ _ T)|auto].
Qed.
Lemma take_words_length k conv n : forall s l r, take_words k conv n s = Some (l, r) -> length s = (n * k + length r)%nat /\ length l = n.
Proof.
  induction n as [|n IH]; intros s l r; cbn [take_words].
  - intros E. injection E as <- <-. auto.
  - destruct (take k s) as [(w, s')|] eqn:T; [|discriminate]. destruct (take_words k conv n s') as [(l', r')|] eqn:E; [|discriminate].
    intros F. injection F as <- <-. destruct (IH _ _ _ E) as (L & <-). apply take_some in T as (-> & <-). cbn [length].
    split; [|reflexivity]. rewrite app_length, L. lia.
Qed.
