(** * Lemmas on writing and reading a connectivity *)

From Coq Require Import ZArith List Bool Lia ZifyBool.
From Verif Require Import Quad Spec Partition Conn ConnLemmas ConnBounds Bytes ConnIO.
Import ListNotations.
Open Scope Z_scope.

(** an array that is NULL without entries, and entries of a type *)
Definition opt_array (P : Z -> Prop) (a : option (list Z)) (n : Z) (exists_ : Prop) : Prop :=
  match a with Some l => exists_ /\ zlen l = n /\ Forall P l | None => ~ exists_ end.

(** A connectivity as p4est_connectivity_new allocates it, with entries of the types of the
    arrays, and sizes that do not overflow p4est_topidx_t. *)
Definition storable (d : dim) (c : conn) : Prop :=
  allocated d c /\
  (faces d * c_nt c < 2 ^ 31 /\ children d * c_nt c < 2 ^ 31 /\ c_nc c + 1 < 2 ^ 31 /\ c_ne c + 1 < 2 ^ 31 /\
   (0 < c_nv c -> 3 * c_nv c < 2 ^ 31) /\ (0 < c_ne c -> 12 * c_nt c < 2 ^ 31)) /\
  opt_array u64 (c_vertices c) (3 * c_nv c) (0 < c_nv c) /\
  opt_array i32 (c_ttv c) (c_nt c * children d) (0 < c_nv c) /\
  (0 <= c_attr c < 2 ^ 64 /\ c_nt c * c_attr c < 2 ^ 64 /\ opt_array u8 (c_tta c) (c_nt c * c_attr c) (0 < c_attr c)) /\
  (Forall i32 (c_ttt c) /\ Forall i8 (c_ttf c)) /\
  (d = D2 -> c_ne c = 0 /\ c_eoff c = []) /\
  (c_ne c = 0 -> c_tte c = [] /\ c_ett c = [] /\ c_ete c = []) /\
  (Forall i32 (c_tte c) /\ Forall i32 (c_eoff c) /\ Forall i32 (c_ett c) /\ Forall i8 (c_ete c)) /\
  (c_nc c = 0 -> c_ttc c = [] /\ c_ctt c = [] /\ c_ctc c = []) /\
  (Forall i32 (c_ttc c) /\ Forall i32 (c_coff c) /\ Forall i32 (c_ctt c) /\ Forall i8 (c_ctc c)) /\
  (* the last offset is the number of entries, as p4est_connectivity_new sets it *)
  (forall x, zget (c_coff c) (c_nc c) = Some x -> 0 <= x) /\ (forall x, zget (c_eoff c) (c_ne c) = Some x -> 0 <= x).

Lemma zslice_all {A} (l : list A) : zslice l 0 (length l) = Some l.
Proof.
  assert (G : forall p, zslice (p ++ l) (zlen p) (length l) = Some l).
  { induction l as [|x l IH]; intros p; cbn [length zslice]; [reflexivity|].
    unfold zget, zlen. destruct (Z.of_nat (length p) <? 0) eqn:E; [lia|]. rewrite Nat2Z.id, nth_error_app2, Nat.sub_diag by lia. cbn [nth_error].
    specialize (IH (p ++ [x])). rewrite <- app_assoc in IH. unfold zlen in IH. rewrite app_length in IH. cbn [length app] in IH.
    replace (Z.of_nat (length p + 1)) with (Z.of_nat (length p) + 1) in IH by lia. rewrite IH. reflexivity. }
  apply (G []).
Qed.
Lemma put_all k a n : zlen a = n -> put k a n = Some (flat_map (enc k) a).
Proof. intros <-. unfold put, zlen. rewrite Nat2Z.id, zslice_all. reflexivity. Qed.

Definition coded (P : Z -> Prop) (k : nat) (conv : list Z -> Z) : Prop :=
  forall x, P x -> length (enc k x) = k /\ conv (enc k x) = x.
Lemma coded_u64 : coded u64 8 dec. Proof. intros x H. split; [apply enc_length|apply dec_u64; auto]. Qed.
Lemma coded_i32 : coded i32 4 sdec. Proof. intros x H. split; [apply enc_length|apply dec_i32; auto]. Qed.
Lemma coded_i8 : coded i8 1 sdec. Proof. intros x H. split; [apply enc_length|apply dec_i8; auto]. Qed.
Lemma coded_u8 : coded u8 1 dec. Proof. intros x H. split; [apply enc_length|apply dec_enc_u; exact H]. Qed.

(** what is written is read *)
Lemma put_take P k conv a n : coded P k conv -> Forall P a -> zlen a = n ->
  exists w, put k a n = Some w /\ Forall u8 w /\ forall s, take_words k conv (Z.to_nat n) (w ++ s) = Some (a, s).
Proof.
  intros C F E. exists (flat_map (enc k) a). split; [apply put_all; auto|]. split.
  - clear. induction a as [|x a IH]; cbn; [constructor|]. apply Forall_app. split; [apply enc_bytes|auto].
  - intros s. rewrite <- E. unfold zlen. rewrite Nat2Z.id. apply (take_words_app k conv P (enc k) C). auto.
Qed.
Lemma put_if_take P k conv (b : bool) a n : coded P k conv -> (b = true -> Forall P a /\ zlen a = n) -> (b = false -> a = []) ->
  exists w, put_if b (put k a n) = Some w /\ Forall u8 w /\ forall s, read_if b k conv n (w ++ s) = Some (a, s).
Proof.
  intros C T F. destruct b; cbn [put_if].
  - destruct (T eq_refl) as (F1 & E). apply put_take with (P := P); auto.
  - rewrite (F eq_refl). exists []. split; [reflexivity|]. split; [constructor|]. reflexivity.
Qed.
Lemma oput_if_take P k conv (x : Z) a n : 0 <= x -> coded P k conv -> opt_array P a n (0 < x) ->
  exists w l, put_if (0 <? x) (oput k a n) = Some w /\ Forall u8 w /\ (forall s, read_if (0 <? x) k conv n (w ++ s) = Some (l, s)) /\
    a = (if 0 <? x then Some l else None).
Proof.
  intros Hx C O. unfold opt_array in O. destruct a as [l|].
  - destruct O as (H & E & F). exists (flat_map (enc k) l), l. replace (0 <? x) with true by lia. cbn [put_if oput].
    destruct (put_take P k conv l n C F E) as (w & P1 & P2 & P3). rewrite (put_all k l n E) in P1. injection P1 as <-.
    rewrite (put_all k l n E). auto.
  - exists [], []. replace (0 <? x) with false by lia. cbn [put_if]. split; [reflexivity|]. split; [constructor|]. split; reflexivity.
Qed.

Lemma to_topidx_id x : 0 <= x < 2 ^ 31 -> to_topidx x = x.
Proof.
  intros H. unfold to_topidx, signed. change (256 ^ Z.of_nat 4 / 2) with (2 ^ 31). rewrite Z.mod_small by lia.
  destruct (x <? 2 ^ 31) eqn:E; lia.
Qed.

Lemma i32_nonneg l i x : Forall i32 l -> zget l i = Some x -> i32 x.
Proof. intros F E. apply zget_in in E. rewrite Forall_forall in F. auto. Qed.

Lemma concat_all_cons x l r : concat_all l = Some r -> concat_all (Some x :: l) = Some (x ++ r).
Proof. cbn. intros ->. reflexivity. Qed.

Lemma rd_some {m l r k} : m = Some (l, r) -> rd m k = k l r.
Proof. intros ->. reflexivity. Qed.

Lemma round_trip d version c : storable d c -> conn_is_valid d c = Some true -> length version = 24%nat -> Forall u8 version ->
  exists bytes, sink d version c = Some bytes /\ Forall u8 bytes /\ forall rest, source d (bytes ++ rest) = Got c rest.
Proof.
  intros (AL & (O1 & O2 & O3 & O4 & O5 & O6) & SV & STV & (A1 & A2 & SA) & (F1 & F2) & D2E & E0 & (F3 & F4 & F5 & F6) & C0 & (F7 & F8 & F9 & F10) & LC & LE) V LV FV.
  pose proof AL as (P1 & P2 & P3 & P4 & ATV & ATT & ATF & AE & ACO & AC). unfold sink.
  assert (X : exists num_ett, (if is3 d then zget (c_eoff c) (c_ne c) else Some 0) = Some num_ett /\ 0 <= num_ett < 2 ^ 31 /\
     (0 < c_ne c -> zlen (c_ett c) = num_ett /\ zlen (c_ete c) = num_ett) /\ (d = D2 -> num_ett = 0) /\ (d = D3 -> zget (c_eoff c) (c_ne c) = Some num_ett)).
  { destruct d; cbn [is3].
    - exists 0. split; [reflexivity|]. split; [lia|]. destruct (D2E eq_refl) as (E & _). split; [lia|]. split; [auto|discriminate].
    - destruct (AE eq_refl) as (L & B).
      destruct (zget_some (c_eoff c) (c_ne c) ltac:(lia)) as (x & E). exists x. split; [auto|].
      pose proof (i32_nonneg _ _ _ F4 E) as R. unfold i32 in R. pose proof (LE x E).
      split; [lia|]. split; [|split; [discriminate|auto]].
      intros P; destruct (B P) as (_ & B2 & B3); rewrite E in B3; injection B3 as ->; lia. }
  destruct X as (num_ett & X1 & X2 & X3 & X4 & X5). rewrite X1.
  destruct (zget_some (c_coff c) (c_nc c) ltac:(lia)) as (num_ctt & Y1). rewrite Y1.
  assert (Y2 : 0 <= num_ctt < 2 ^ 31) by (pose proof (i32_nonneg _ _ _ F8 Y1) as R; unfold i32 in R; pose proof (LC _ Y1); lia).
  assert (Y3 : 0 < c_nc c -> zlen (c_ctt c) = num_ctt /\ zlen (c_ctc c) = num_ctt)
    by (intros P; destruct (AC P) as (_ & B2 & B3); rewrite Y1 in B3; injection B3 as ->; lia).
  assert (NEd : (if is3 d then c_ne c else 0) = c_ne c) by (destruct d; cbn [is3]; [destruct (D2E eq_refl); lia|auto]).
  cbv zeta. rewrite NEd.
  assert (CH : children d = 4 \/ children d = 8) by (destruct d; cbn; auto).
  assert (FA : faces d = 4 \/ faces d = 6) by (destruct d; cbn; auto).
  (* the pieces *)
  destruct (oput_if_take u64 8 dec (c_nv c) (c_vertices c) (3 * c_nv c) P1 coded_u64 SV) as (w1 & vs & W1 & U1 & R1 & Ev).
  destruct (put_if_take i32 4 sdec (0 <? c_ne c) (c_tte c) (12 * c_nt c) coded_i32) as (w2 & W2 & U2 & R2).
  { intros H. split; [auto|]. destruct d; [destruct (D2E eq_refl); lia|]. destruct (AE eq_refl) as (_ & B). destruct (B ltac:(lia)) as (B1 & _). lia. }
  { intros H. apply E0. lia. }
  rewrite (Z.mul_comm (c_nt c)) in STV.
  destruct (oput_if_take i32 4 sdec (c_nv c) (c_ttv c) (children d * c_nt c) P1 coded_i32 STV) as (w3 & tv & W3 & U3 & R3 & Et).
  destruct (put_if_take i32 4 sdec (0 <? c_nc c) (c_ttc c) (children d * c_nt c) coded_i32) as (w4 & W4 & U4 & R4).
  { intros H. split; [auto|]. destruct (AC ltac:(lia)) as (B1 & _). lia. }
  { intros H. apply C0. lia. }
  destruct (put_take i32 4 sdec (c_ttt c) (faces d * c_nt c) coded_i32 F1 ltac:(lia)) as (w5 & W5 & U5 & R5).
  destruct (put_take i8 1 sdec (c_ttf c) (faces d * c_nt c) coded_i8 F2 ltac:(lia)) as (w6 & W6 & U6 & R6).
  destruct (oput_if_take u8 1 dec (c_attr c) (c_tta c) (c_nt c * c_attr c) ltac:(lia) coded_u8 SA) as (w7 & ta & W7 & U7 & R7 & Ea).
  destruct (put_if_take i32 4 sdec (is3 d) (c_eoff c) (c_ne c + 1) coded_i32) as (w8 & W8 & U8 & R8).
  { intros H. split; [auto|]. apply AE. destruct d; [discriminate|auto]. }
  { intros H. apply D2E. destruct d; [auto|discriminate]. }
  destruct (put_if_take i32 4 sdec (0 <? c_ne c) (c_ett c) num_ett coded_i32) as (w9 & W9 & U9 & R9).
  { intros H. split; [auto|]. apply X3. lia. }
  { intros H. apply E0. lia. }
  destruct (put_if_take i8 1 sdec (0 <? c_ne c) (c_ete c) num_ett coded_i8) as (w10 & W10 & U10 & R10).
  { intros H. split; [auto|]. apply X3. lia. }
  { intros H. apply E0. lia. }
  destruct (put_take i32 4 sdec (c_coff c) (c_nc c + 1) coded_i32 F8 ACO) as (w11 & W11 & U11 & R11).
  destruct (put_if_take i32 4 sdec (0 <? c_nc c) (c_ctt c) num_ctt coded_i32) as (w12 & W12 & U12 & R12).
  { intros H. split; [auto|]. apply Y3. lia. }
  { intros H. apply C0. lia. }
  destruct (put_if_take i8 1 sdec (0 <? c_nc c) (c_ctc c) num_ctt coded_i8) as (w13 & W13 & U13 & R13).
  { intros H. split; [auto|]. apply Y3. lia. }
  { intros H. apply C0. lia. }
  rewrite W1, W2, W3, W4, W5, W6, W7, W8, W9, W10, W11, W12, W13.
  set (H := [ondisk_format d; 4; c_nv c; c_nt c; c_ne c; num_ett; c_nc c; num_ctt; c_attr c; 0]).
  assert (NTs : c_nt c < 2 ^ 31) by (destruct FA as [E|E]; rewrite E in O1; lia).
  assert (NVs : c_nv c < 2 ^ 31) by (destruct (Z.eq_dec (c_nv c) 0); lia).
  assert (FH : Forall u64 H).
  { unfold H. assert (u64 (ondisk_format d)) by (destruct d; unfold u64; cbn; lia).
    repeat (constructor; [first [assumption|unfold u64; lia]|]). constructor. }
  assert (UM : Forall u8 (magic8 d)) by (destruct d; unfold magic8, magic5; cbn; repeat constructor; unfold u8; lia).
  assert (UH : Forall u8 (flat_map (enc 8) H)).
  { generalize H. clear. intros H. induction H as [|x a IH]; cbn [flat_map]; [constructor|]. apply Forall_app. split; [apply enc_bytes|auto]. }
  eexists. split; [cbn [concat_all]; reflexivity|]. split.
  { repeat (apply Forall_app; split; [assumption|]). constructor. }
  intros rest. unfold source. rewrite <- !app_assoc. cbn [app].
  rewrite (rd_some (take_app 8 (magic8 d) _ eq_refl)).
  assert (MO : magic_ok d (magic8 d) = true) by (destruct d; vm_compute; reflexivity). rewrite MO. cbn [negb].
  rewrite (rd_some (take_app 24 version _ LV)).
  rewrite (rd_some (take_words_app 8 dec u64 (enc 8) coded_u64 H _ FH)).
  cbv zeta. unfold H. cbn [nth]. rewrite !to_topidx_id by lia. rewrite !Z.eqb_refl. cbn [negb].
  replace ((c_nv c <? 0) || (c_nt c <? 0)) with false by lia.
  replace (if is3 d then (c_ne c <? 0) || (num_ett <? 0) else negb (c_ne c =? 0) || negb (num_ett =? 0)) with false
    by (destruct d; cbn [is3]; [destruct (D2E eq_refl); rewrite (X4 eq_refl)|]; lia).
  replace ((c_nc c <? 0) || (num_ctt <? 0)) with false by lia.
  replace (negb _) with false.
  2:{ symmetry. unfold fits. destruct (0 <? c_nv c) eqn:B1, (0 <? c_ne c) eqn:B2; lia. }
  rewrite (rd_some (R1 _)), (rd_some (R2 _)), (rd_some (R3 _)), (rd_some (R4 _)), (rd_some (R5 _)), (rd_some (R6 _)).
  rewrite (Z.mod_small (c_nt c * c_attr c)) by (split; [apply Z.mul_nonneg_nonneg|]; lia).
  rewrite (rd_some (R7 _)), (rd_some (R8 _)).
  replace (is3 d && _) with false by (destruct d; cbn [is3 andb]; [auto|rewrite (X5 eq_refl), Z.eqb_refl; auto]).
  rewrite (rd_some (R9 _)), (rd_some (R10 _)), (rd_some (R11 _)). rewrite Y1, Z.eqb_refl. cbn [negb].
  rewrite (rd_some (R12 _)), (rd_some (R13 _)). rewrite <- Ev, <- Et, <- Ea.
  assert (E : mkconn (c_nv c) (c_nt c) (c_ne c) (c_nc c) (c_vertices c) (c_ttv c) (c_attr c) (c_tta c) (c_ttt c) (c_ttf c) (c_tte c) (c_eoff c)
     (c_ett c) (c_ete c) (c_ttc c) (c_coff c) (c_ctt c) (c_ctc c) = c) by (destruct c; reflexivity).
  rewrite E, V. reflexivity.
Qed.

(** ** A longer stream *)
Definition out_app (o : outcome) (q : list Z) : outcome := match o with Got c r => Got c (r ++ q) | x => x end.
Definition grows (f : list Z -> option (list Z * list Z)) : Prop :=
  forall p q l r, f p = Some (l, r) -> f (p ++ q) = Some (l, r ++ q).
Lemma take_grows n : grows (take n).
Proof.
  induction n as [|n IH]; intros p q l r; cbn [take].
  - intros E. injection E as <- <-. reflexivity.
  - destruct p as [|b p]; [discriminate|]. cbn [app]. destruct (take n p) as [(l', r')|] eqn:E; [|discriminate].
    intros F. injection F as <- <-. rewrite (IH _ q _ _ E). reflexivity.
Qed.
Lemma take_words_grows k conv n : grows (take_words k conv n).
Proof.
  induction n as [|n IH]; intros p q l r; cbn [take_words].
  - intros E. injection E as <- <-. reflexivity.
  - destruct (take k p) as [(w, s')|] eqn:T; [|discriminate]. rewrite (take_grows _ _ q _ _ T).
    destruct (take_words k conv n s') as [(l', r')|] eqn:E; [|discriminate].
    intros F. injection F as <- <-. rewrite (IH _ q _ _ E). reflexivity.
Qed.
Lemma read_if_grows b k conv n : grows (read_if b k conv n).
Proof.
  unfold read_if. destruct b; [apply take_words_grows|]. intros p q l r E. injection E as <- <-. reflexivity.
Qed.
Lemma rd_app f (k : list Z -> list Z -> outcome) p q : grows f ->
  (forall l r, k l r <> Null -> k l (r ++ q) = out_app (k l r) q) ->
  rd (f p) k <> Null -> rd (f (p ++ q)) k = out_app (rd (f p) k) q.
Proof.
  intros G K. unfold rd. destruct (f p) as [(l, r)|] eqn:E; [|congruence]. rewrite (G _ q _ _ E). apply K.
Qed.
Lemma source_app d p q : source d p <> Null -> source d (p ++ q) = out_app (source d p) q.
Proof.
  unfold source. apply rd_app; [apply take_grows|]. intros magic r0. destruct (negb (magic_ok d magic)); [congruence|].
  apply rd_app; [apply take_grows|]. intros ver r1. apply rd_app; [apply take_words_grows|]. intros h r2. cbv zeta.
  destruct (negb (nth 0 h 0 =? ondisk_format d)); [congruence|]. destruct (negb (nth 1 h 0 =? 4)); [congruence|].
  destruct ((to_topidx (nth 2 h 0) <? 0) || (to_topidx (nth 3 h 0) <? 0)); [congruence|].
  match goal with |- context [if (if is3 d then ?a else ?b) then Null else _] => destruct (if is3 d then a else b); [congruence|] end.
  destruct ((to_topidx (nth 6 h 0) <? 0) || (to_topidx (nth 7 h 0) <? 0)); [congruence|].
  match goal with |- context [if negb ?a then Bad else _] => destruct (negb a); [reflexivity|] end.
  do 4 (apply rd_app; [apply read_if_grows|]; intros ? ?).
  do 2 (apply rd_app; [apply take_words_grows|]; intros ? ?).
  do 2 (apply rd_app; [apply read_if_grows|]; intros ? ?).
  match goal with |- context [if is3 d && ?a then Null else _] => destruct (is3 d && a); [congruence|] end.
  do 2 (apply rd_app; [apply read_if_grows|]; intros ? ?).
  apply rd_app; [apply take_words_grows|]; intros ? ?.
  match goal with |- context [if negb ?a then Null else _] => destruct (negb a); [congruence|] end.
  do 2 (apply rd_app; [apply read_if_grows|]; intros ? ?).
  destruct (conn_is_valid d _) as [[|]|]; intros H; [reflexivity|congruence|reflexivity].
Qed.

(** ** What is accepted *)
Lemma rd_got {m k c r} : rd m k = Got c r -> exists l s, m = Some (l, s) /\ k l s = Got c r.
Proof. unfold rd. destruct m as [(l, s)|]; [eauto|discriminate]. Qed.

Definition reads (P : Z -> Prop) (k : nat) (conv : list Z -> Z) : Prop :=
  forall w, length w = k -> Forall u8 w -> P (conv w).
Lemma dec_range w : Forall u8 w -> 0 <= dec w < 256 ^ Z.of_nat (length w).
Proof.
  induction w as [|b w IH]; intros F; [cbn; lia|]. inversion F as [|? ? B Fw]; subst. specialize (IH Fw). cbn [dec length].
  rewrite Nat2Z.inj_succ, Z.pow_succ_r by lia. unfold u8 in B. lia.
Qed.
Lemma signed_range n x : (0 < n)%nat -> 0 <= x < 256 ^ Z.of_nat n -> - (256 ^ Z.of_nat n / 2) <= signed n x < 256 ^ Z.of_nat n / 2.
Proof.
  intros Hn H. unfold signed.
  assert (E : 256 ^ Z.of_nat n = (128 * 256 ^ (Z.of_nat n - 1)) * 2).
  { replace (Z.of_nat n) with (Z.succ (Z.of_nat n - 1)) at 1 by lia. rewrite Z.pow_succ_r by lia. lia. }
  rewrite E in *. rewrite Z.div_mul in * by lia. destruct (x <? 128 * 256 ^ (Z.of_nat n - 1)) eqn:B; lia.
Qed.
Lemma reads_u64 : reads u64 8 dec.
Proof. intros w L F. pose proof (dec_range w F) as R. rewrite L in R. exact R. Qed.
Lemma reads_u8 : reads u8 1 dec.
Proof. intros w L F. pose proof (dec_range w F) as R. rewrite L in R. exact R. Qed.
Lemma reads_i32 : reads i32 4 sdec.
Proof. intros w L F. pose proof (dec_range w F) as R. unfold sdec. rewrite L in *. apply (signed_range 4 (dec w)); [lia|exact R]. Qed.
Lemma reads_i8 : reads i8 1 sdec.
Proof. intros w L F. pose proof (dec_range w F) as R. unfold sdec. rewrite L in *. apply (signed_range 1 (dec w)); [lia|exact R]. Qed.

Lemma take_u8 n s l r : Forall u8 s -> take n s = Some (l, r) -> Forall u8 l /\ Forall u8 r /\ length l = n.
Proof. intros F E. apply take_some in E as (-> & L). apply Forall_app in F. tauto. Qed.
Lemma take_words_u8 P k conv n : reads P k conv -> forall s l r, Forall u8 s -> take_words k conv n s = Some (l, r) ->
  length l = n /\ Forall P l /\ Forall u8 r.
Proof.
  intros H. induction n as [|n IH]; intros s l r F; cbn [take_words].
  - intros E. injection E as <- <-. auto.
  - destruct (take k s) as [(w, s')|] eqn:T; [|discriminate]. destruct (take_words k conv n s') as [(l', r')|] eqn:E; [|discriminate].
    intros X. injection X as <- <-. destruct (take_u8 _ _ _ _ F T) as (Fw & Fs & L). destruct (IH _ _ _ Fs E) as (<- & F' & Fr).
    cbn [length]. split; [reflexivity|]. split; [constructor; auto|auto].
Qed.
Lemma read_if_u8 P k conv b n s l r : reads P k conv -> 0 <= n -> Forall u8 s -> read_if b k conv n s = Some (l, r) ->
  (b = true -> zlen l = n) /\ (b = false -> l = []) /\ Forall P l /\ Forall u8 r.
Proof.
  intros H Hn F. unfold read_if. destruct b.
  - intros E. destruct (take_words_u8 P k conv _ H _ _ _ F E) as (L & X & Y). unfold zlen. rewrite L. split; [intros _; lia|]. split; [discriminate|auto].
  - intros E. injection E as <- <-. split; [discriminate|]. auto.
Qed.

Lemma accepted d s c rest : Forall u8 s -> source d s = Got c rest ->
  conn_is_valid d c = Some true /\ allocated d c /\ 0 <= c_attr c < 2 ^ 64 /\ (c_nt c * c_attr c < 2 ^ 64 -> storable d c).
Proof.
  intros FS. unfold source. intros H.
  apply rd_got in H as (magic & s0 & E0 & H). destruct (take_u8 _ _ _ _ FS E0) as (_ & FS0 & _). clear FS E0.
  destruct (negb (magic_ok d magic)); [discriminate|].
  apply rd_got in H as (ver & s1 & E1 & H). destruct (take_u8 _ _ _ _ FS0 E1) as (_ & FS1 & _). clear FS0 E1.
  apply rd_got in H as (h & s2 & E2 & H). destruct (take_words_u8 u64 8 dec _ reads_u64 _ _ _ FS1 E2) as (Lh & Fh & FS2). clear FS1 E2.
  cbv zeta in H.
  destruct (negb (nth 0 h 0 =? ondisk_format d)); [discriminate|]. destruct (negb (nth 1 h 0 =? 4)); [discriminate|].
  assert (A : u64 (nth 8 h 0)) by (rewrite Forall_forall in Fh; apply Fh; apply nth_In; lia). unfold u64 in A.
  set (nv := to_topidx (nth 2 h 0)) in *. set (nt := to_topidx (nth 3 h 0)) in *. set (ne := to_topidx (nth 4 h 0)) in *.
  set (num_ett := to_topidx (nth 5 h 0)) in *. set (nc := to_topidx (nth 6 h 0)) in *. set (num_ctt := to_topidx (nth 7 h 0)) in *.
  set (attr := nth 8 h 0) in *. clearbody nv nt ne num_ett nc num_ctt attr. clear Lh Fh.
  destruct ((nv <? 0) || (nt <? 0)) eqn:G1; [discriminate|].
  match type of H with (if ?b then _ else _) = _ => destruct b eqn:G2; [discriminate|] end.
  destruct ((nc <? 0) || (num_ctt <? 0)) eqn:G3; [discriminate|].
  match type of H with (if negb ?b then _ else _) = _ => destruct b eqn:G4; cbn [negb] in H; [|discriminate] end.
  assert (B1 : 0 <= nv) by (clear - G1; lia). assert (B2 : 0 <= nt) by (clear - G1; lia).
  assert (B3 : 0 <= nc) by (clear - G3; lia). assert (B4 : 0 <= num_ctt) by (clear - G3; lia).
  assert (NE0 : d = D2 -> ne = 0 /\ num_ett = 0) by (clear - G2; intros ->; cbn [is3] in G2; lia).
  assert (B5 : 0 <= ne) by (clear - G2; destruct d; cbn [is3] in G2; lia).
  assert (B6 : 0 <= num_ett) by (clear - G2; destruct d; cbn [is3] in G2; lia).
  assert (CH : children d = 4 \/ children d = 8) by (destruct d; cbn; auto).
  assert (FA : faces d = 4 \/ faces d = 6) by (destruct d; cbn; auto).
  assert (PC : 0 <= children d * nt) by (clear - CH B2; apply Z.mul_nonneg_nonneg; lia).
  assert (PF : 0 <= faces d * nt) by (clear - FA B2; apply Z.mul_nonneg_nonneg; lia).
  assert (PA : 0 <= nt * attr) by (clear - A B2; apply Z.mul_nonneg_nonneg; lia).
  assert (PM : 0 <= (nt * attr) mod 2 ^ 64) by (apply Z.mod_pos_bound; reflexivity).
  assert (G : faces d * nt < 2 ^ 31 /\ children d * nt < 2 ^ 31 /\ nc + 1 < 2 ^ 31 /\ ne + 1 < 2 ^ 31 /\
    (0 < nv -> 3 * nv < 2 ^ 31) /\ (0 < ne -> 12 * nt < 2 ^ 31)).
  { clear - G4. unfold fits in G4. destruct (0 <? nv) eqn:X1, (0 <? ne) eqn:X2; lia. }
  clear G1 G2 G3 G4.
  apply rd_got in H as (vs & s3 & E3 & H). destruct (read_if_u8 u64 8 dec _ (3 * nv) _ _ _ reads_u64 ltac:(clear - B1; lia) FS2 E3) as (L1 & N1 & F1 & FS3). clear FS2 E3.
  apply rd_got in H as (tte & s4 & E4 & H). destruct (read_if_u8 i32 4 sdec _ (12 * nt) _ _ _ reads_i32 ltac:(clear - B2; lia) FS3 E4) as (L2 & N2 & F2 & FS4). clear FS3 E4.
  apply rd_got in H as (ttv & s5 & E5 & H). destruct (read_if_u8 i32 4 sdec _ _ _ _ _ reads_i32 PC FS4 E5) as (L3 & N3 & F3 & FS5). clear FS4 E5.
  apply rd_got in H as (ttc & s6 & E6 & H). destruct (read_if_u8 i32 4 sdec _ _ _ _ _ reads_i32 PC FS5 E6) as (L4 & N4 & F4 & FS6). clear FS5 E6.
  apply rd_got in H as (ttt & s7 & E7 & H). destruct (take_words_u8 i32 4 sdec _ reads_i32 _ _ _ FS6 E7) as (L5 & F5 & FS7). clear FS6 E7.
  apply rd_got in H as (ttf & s8 & E8 & H). destruct (take_words_u8 i8 1 sdec _ reads_i8 _ _ _ FS7 E8) as (L6 & F6 & FS8). clear FS7 E8.
  apply rd_got in H as (tta & s9 & E9 & H). destruct (read_if_u8 u8 1 dec _ _ _ _ _ reads_u8 PM FS8 E9) as (L7 & N7 & F7 & FS9). clear FS8 E9.
  apply rd_got in H as (eoff & s10 & E10 & H). destruct (read_if_u8 i32 4 sdec _ (ne + 1) _ _ _ reads_i32 ltac:(clear - B5; lia) FS9 E10) as (L8 & N8 & F8 & FS10). clear FS9 E10.
  match type of H with (if ?b then _ else _) = _ => destruct b eqn:G5; [discriminate|] end.
  apply rd_got in H as (ett & s11 & E11 & H). destruct (read_if_u8 i32 4 sdec _ _ _ _ _ reads_i32 B6 FS10 E11) as (L9 & N9 & F9 & FS11). clear FS10 E11.
  apply rd_got in H as (ete & s12 & E12 & H). destruct (read_if_u8 i8 1 sdec _ _ _ _ _ reads_i8 B6 FS11 E12) as (L10 & N10 & F10 & FS12). clear FS11 E12.
  apply rd_got in H as (coff & s13 & E13 & H). destruct (take_words_u8 i32 4 sdec _ reads_i32 _ _ _ FS12 E13) as (L11 & F11 & FS13). clear FS12 E13.
  match type of H with (if negb ?b then _ else _) = _ => destruct b eqn:G6; cbn [negb] in H; [|discriminate] end.
  apply rd_got in H as (ctt & s14 & E14 & H). destruct (read_if_u8 i32 4 sdec _ _ _ _ _ reads_i32 B4 FS13 E14) as (L12 & N12 & F12 & FS14). clear FS13 E14.
  apply rd_got in H as (ctc & s15 & E15 & H). destruct (read_if_u8 i8 1 sdec _ _ _ _ _ reads_i8 B4 FS14 E15) as (L13 & N13 & F13 & FS15). clear FS14 E15.
  match type of H with match conn_is_valid d ?x with _ => _ end = _ => destruct (conn_is_valid d x) as [[|]|] eqn:V; try discriminate end.
  injection H as <- <-. split; [exact V|]. clear V.
  assert (EO : d = D3 -> zlen eoff = ne + 1 /\ zget eoff ne = Some num_ett).
  { intros ->. cbn [is3 andb] in *. split; [apply L8; reflexivity|]. revert G5. clear. cbn. destruct (zget eoff ne) as [x|]; [|discriminate]. intros G5. f_equal. lia. }
  assert (CO : zlen coff = nc + 1 /\ zget coff nc = Some num_ctt).
  { split; [unfold zlen; rewrite L11; clear - B3; lia|]. revert G6. clear. destruct (zget coff nc) as [x|]; [|discriminate]. intros G6. f_equal. lia. }
  assert (AL : allocated d (mkconn nv nt ne nc (if 0 <? nv then Some vs else None) (if 0 <? nv then Some ttv else None) attr
     (if 0 <? attr then Some tta else None) ttt ttf tte eoff ett ete ttc coff ctt ctc)).
  { unfold allocated. cbn [c_nv c_nt c_ne c_nc c_vertices c_ttv c_attr c_tta c_ttt c_ttf c_tte c_eoff c_ett c_ete c_ttc c_coff c_ctt c_ctc].
    split; [exact B1|]. split; [exact B2|]. split; [exact B5|]. split; [exact B3|].
    assert (TR : forall x, 0 < x -> (0 <? x) = true) by (clear; lia).
    split. { intros P. apply TR in P. exists ttv. rewrite P. split; [auto|]. rewrite (L3 P). apply Z.mul_comm. }
    split; [unfold zlen; rewrite L5; clear - PF; lia|]. split; [unfold zlen; rewrite L6; clear - PF; lia|].
    split.
    { intros D. destruct (EO D) as (EO1 & EO2). split; [auto|]. intros P. apply TR in P. split; [rewrite (L2 P); apply Z.mul_comm|].
      rewrite (L9 P), (L10 P). split; auto. }
    split; [apply CO|]. intros P. apply TR in P. split; [rewrite (L4 P); apply Z.mul_comm|]. rewrite (L12 P), (L13 P). split; [auto|]. apply CO. }
  split; [exact AL|]. split; [exact A|]. intros NA. cbn [c_nt c_attr] in NA. unfold storable.
  split; [exact AL|]. clear AL.
  cbn [c_nv c_nt c_ne c_nc c_vertices c_ttv c_attr c_tta c_ttt c_ttf c_tte c_eoff c_ett c_ete c_ttc c_coff c_ctt c_ctc].
  split; [exact G|].
  split. { unfold opt_array. destruct (0 <? nv) eqn:B; [|clear - B; lia]. rewrite (L1 eq_refl). split; [clear - B; lia|]. auto. }
  split. { unfold opt_array. destruct (0 <? nv) eqn:B; [|clear - B; lia]. rewrite (L3 eq_refl). split; [clear - B; lia|]. split; [apply Z.mul_comm|auto]. }
  split. { split; [exact A|]. split; [exact NA|]. unfold opt_array. destruct (0 <? attr) eqn:B; [|clear - B; lia].
    rewrite (L7 eq_refl), Z.mod_small by (split; [exact PA|exact NA]). split; [clear - B; lia|]. auto. }
  assert (FL : forall x, x = 0 -> (0 <? x) = false) by (intros x ->; reflexivity).
  split; [auto|]. split. { intros D. split; [apply NE0; auto|]. apply N8. rewrite D. reflexivity. }
  split. { intros E. apply FL in E. auto. }
  split; [auto|]. split. { intros E. apply FL in E. auto. }
  split; [auto|]. split.
  - intros x E. destruct CO as (_ & C2). rewrite C2 in E. injection E as <-. exact B4.
  - intros x E. destruct d.
    + rewrite (N8 eq_refl) in E. apply zget_in in E. destruct E.
    + destruct (EO eq_refl) as (_ & E2). rewrite E2 in E. injection E as <-. exact B6.
Qed.
