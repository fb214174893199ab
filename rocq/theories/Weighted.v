(** * Model of the weighted branch of p4est_partition_ext (src/p4est.c 2505-2700) *)

From Coq Require Import ZArith List Bool.
From Verif Require Import Search Adapt Partition Comm Cut.
Import ListNotations.
Open Scope Z_scope.

(** The weights of a rank's local quadrants are a list, in the order in which
    weight_fn is called for them (lines 2513-2523).  Arithmetic is in int64_t in
    the code, see the hypothesis of the theorems. *)

Inductive tag : Set := LOW | HIGH.
Record wmsg : Set := mkwmsg { w_src : Z; w_dst : Z; w_tag : tag; w_val : Z }.
Definition tag_eqb (a b : tag) : bool := match a, b with LOW, LOW => true | HIGH, HIGH => true | _, _ => false end.

(** sc_search_lower_bound64 (libsc, not in the tree, documented as): the lowest
    position whose entry is at least the target, -1 if there is none.  The
    guess only influences the speed. *)
Fixpoint lower_bound (target : Z) (a : list Z) (k : Z) : Z :=
  match a with [] => -1 | x :: a' => if target <=? x then k else lower_bound target a' (k + 1) end.

Definition wsum (l : list Z) : Z := fold_right Z.add 0 l.

Section W.
  Variable prec : Z.              (* precision of long double, see Cut.v *)
  Variable P : Z.                 (* num_procs *)
  Variable gws : list Z.          (* global_weight_sums *)
  Variable gfq : list Z.          (* global_first_quadrant *)
  Variable N : Z.                 (* global_num_quadrants *)
  Variable total : Z.             (* weight_sum = global_weight_sums[num_procs] *)

  (** p4est_partition_cut_uint64 (weight_sum, i, num_procs) *)
  Definition wcut (i : Z) : Z := partition_cut prec total i P.

  (** global_weight_sums[r] < c && c <= global_weight_sums[r + 1] *)
  Definition in_range (r c : Z) : option bool :=
    match zget gws r, zget gws (r + 1) with
    | Some a, Some b => Some ((a <? c) && (c <=? b))
    | _, _ => None
    end.

  (** send_lowest and send_highest, lines 2571-2580; [n] is num_procs + 1 - i *)
  Fixpoint send_range (rank : Z) (n : nat) (i lo hi : Z) : option (Z * Z) :=
    match n with
    | O => Some (lo, hi)
    | S n' =>
      match in_range rank (wcut i) with
      | None => None
      | Some true => send_range rank n' (i + 1) (Z.min lo i) (Z.max hi i)
      | Some false => send_range rank n' (i + 1) lo hi
      end
    end.

  (** the loop that sends, lines 2599-2640; [n] is send_highest - i + 1 *)
  Fixpoint send_loop (rank : Z) (lw : list Z) (n : nat) (i : Z) : option (list wmsg) :=
    match n with
    | O => Some []
    | S n' =>
      match zget gfq rank, send_loop rank lw n' (i + 1) with
      | Some f, Some rest =>
        if i <? P then
          let lowers := lower_bound (wcut i) lw 0 in
          let send_index := lowers + f in
          Some (mkwmsg rank i LOW send_index :: mkwmsg rank (i - 1) HIGH send_index :: rest)
        else Some (mkwmsg rank (i - 1) HIGH N :: rest)
      | _, _ => None
      end
    end.

  (** all messages of a rank; [ws] are its weights, lines 2510-2523, 2533-2538, 2571-2641 *)
  Definition wsends (rank : Z) (ws : list Z) : option (list wmsg) :=
    match zget gws rank with
    | None => None
    | Some s =>
      let lw := running s ws in
      match send_range rank (Z.to_nat P) 1 P 0 with
      | None => None
      | Some (lo, hi) => send_loop rank lw (Z.to_nat (hi - lo + 1)) lo
      end
    end.

  (** "for (; i < num_procs; ++i) if (...) break", lines 2652-2665 and 2676-2689;
      [n] is num_procs - i; None if the loop ends without a source *)
  Fixpoint source (c : Z) (n : nat) (i : Z) : option Z :=
    match n with
    | O => None
    | S n' => match in_range i c with
              | None => None
              | Some true => Some i
              | Some false => source c n' (i + 1)
              end
    end.

  (** low_source and high_source (None for -1: nothing is received), lines 2644-2692.
      The second search starts where the first one ended *)
  Definition wrecvs (rank : Z) : option (option Z * option Z) :=
    let lowcut := wcut rank in
    let highcut := wcut (rank + 1) in
    match (if lowcut =? 0 then Some (None, 0)
           else match source lowcut (Z.to_nat P) 0 with Some i => Some (Some i, i) | None => None end) with
    | None => None
    | Some (low, i) =>
      if highcut =? 0 then Some (low, None)
      else match source highcut (Z.to_nat (P - i)) i with Some j => Some (low, Some j) | None => None end
    end.
End W.

(** the message that a receive completes with: the only one with this sender, receiver and
    tag.  None if there is none (the program hangs) or more than one. *)
Definition matching (msgs : list wmsg) (src dst : Z) (t : tag) : list wmsg :=
  filter (fun m => (w_src m =? src) && (w_dst m =? dst) && tag_eqb (w_tag m) t) msgs.
Definition received (msgs : list wmsg) (src : option Z) (dst : Z) (t : tag) : option Z :=
  match src with
  | None => Some 0                        (* recv_low = 0 or recv_high = 0 *)
  | Some s => match matching msgs s dst t with [m] => Some (w_val m) | _ => None end
  end.

(** num_quadrants_in_proc of one rank, lines 2694-2726 *)
Definition wcount (prec P : Z) (gws : list Z) (total : Z) (msgs : list wmsg) (rank : Z) : option Z :=
  match wrecvs prec P gws total rank with
  | None => None
  | Some (low, high) =>
    match received msgs low rank LOW, received msgs high rank HIGH with
    | Some l, Some h => Some (h - l)
    | _, _ => None
    end
  end.

Fixpoint all_some {A} (l : list (option A)) : option (list A) :=
  match l with
  | [] => Some []
  | x :: l' => match x, all_some l' with Some a, Some r => Some (a :: r) | _, _ => None end
  end.
Fixpoint zseq (a : Z) (n : nat) : list Z := match n with O => [] | S n' => a :: zseq (a + 1) n' end.

(** all ranks' messages *)
Definition all_wmsgs (prec : Z) (W : list (list Z)) : option (list wmsg) :=
  let P := zlen W in
  let gws := running 0 (map wsum W) in
  let gfq := count_quadrants (map zlen W) in
  let N := zlen (concat W) in
  let total := wsum (concat W) in
  option_map (@concat wmsg)
    (all_some (map (fun rw => wsends prec P gws gfq N total (fst rw) (snd rw)) (combine (zseq 0 (length W)) W))).

(** the whole weighted branch: [Some None] if all weights are zero (the forest is left
    as it is), [Some (Some counts)] for the new counts *)
Definition weighted_counts (prec : Z) (W : list (list Z)) : option (option (list Z)) :=
  let P := zlen W in
  let gws := running 0 (map wsum W) in
  match zget gws P with
  | None => None
  | Some total =>
    if total =? 0 then Some None
    else
      match all_wmsgs prec W with
      | None => None
      | Some msgs => option_map Some (all_some (map (wcount prec P gws total msgs) (zseq 0 (length W))))
      end
  end.
