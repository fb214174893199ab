(** * Writing and reading a forest

    p4est_save_ext: src/p4est.c 3467-3691, without MPI I/O
    p4est_source_ext: src/p4est.c 4040-4266
    p4est_load_ext: src/p4est.c 3993-4037, without MPI I/O
    p4est_comm_global_first_quadrant: src/p4est_communication.c 411-426

    User data is a list of data_size bytes for every quadrant.  File positions
    are integers without overflow.  A failing write or open is not modelled; it
    aborts. *)

From Coq Require Import ZArith List Bool Lia.
From Verif Require Import Quad Spec Search Adapt Partition Comm Pertree Cut Weighted Conn Bytes ConnIO Forest Inflate Valid.
Import ListNotations.
Open Scope Z_scope.

(** sizeof (p4est_quadrant_t), the same in 2D and 3D: src/p4est.h 75-124, src/p8est.h *)
Definition sizeof_quadrant : Z := 24.
(** the number of bytes up to a multiple of [align] = 32, lines 3522-3529, 4097 and 4202 *)
Definition padding (n : Z) : Z := (32 - n mod 32) mod 32.
Definition zeros (n : Z) : list Z := repeat 0 (Z.to_nat n).

(** fwrite at a position, which may be inside or behind the file *)
Definition write_at (file : list Z) (pos : Z) (b : list Z) : list Z :=
  match b with
  | [] => file
  | _ => let n := Z.to_nat pos in firstn n (file ++ repeat 0 (n - length file)) ++ b ++ skipn (n + length b) file
  end.

(** ** p4est_save_ext *)
Section Save.
  Variable d : dim.
  Variable St : Type.
  Local Notation D := (list Z).
  Local Notation proc := (proc St D).

  (** what is written for one quadrant, lines 3637-3648 *)
  Definition record (save_data : bool) (lf : quad * D) : list Z :=
    flat_map (enc 4) (words d (fst lf)) ++ (if save_data then snd lf else []).
  Definition comb_size (data_size : Z) : Z := (nd d + 1) * 4 + data_size.

  (** the header, lines 3532-3554 *)
  Definition header (save_data save_partition : bool) (data_size P : Z) (gfq pertree : list Z) : list Z :=
    [ondisk_format d; 4; sizeof_quadrant; data_size; if save_data then 1 else 0; if save_partition then P else 1]
    ++ (if save_partition then tl gfq else match zget gfq P with Some n => [n] | None => [] end) ++ tl pertree.

  (** one rank after the other, lines 3583-3684 *)
  Fixpoint save_ranks (save_data : bool) (fpos comb : Z) (gfq : list Z) (rank : Z) (ps : list proc) (file : list Z) : option (list Z) :=
    match ps with
    | [] => Some file
    | p :: ps' =>
      let b := flat_map (record save_data) (local_leaves St D p) in
      if rank =? 0 then save_ranks save_data fpos comb gfq (rank + 1) ps' (file ++ b)
      else match zget gfq rank with
           | None => None
           | Some o => save_ranks save_data fpos comb gfq (rank + 1) ps' (write_at file (fpos + o * comb) b)
           end
    end.

  Definition save (version : list Z) (c : conn) (data_size : Z) (save_data save_partition : bool) (F : forest St D) : option (list Z) :=
    let data_size := if save_data then data_size else 0 in
    let save_data := save_data && negb (data_size =? 0) in
    let P := zlen (f_procs _ _ F) in
    match count_pertree d (f_gfp _ _ F) (f_gfq _ _ F) P (c_nt c) (map (rk_of St D) (f_procs _ _ F)), sink d version c with
    | Some pertree, Some b =>
      let b := b ++ zeros (padding (zlen b)) in
      let b := b ++ flat_map (enc 8) (header save_data save_partition data_size P (f_gfq _ _ F) pertree) in
      let b := b ++ zeros (padding (zlen b)) in
      save_ranks save_data (zlen b) (comb_size data_size) (f_gfq _ _ F) 0 (f_procs _ _ F) b
    | _, _ => None
    end.
End Save.

(** ** p4est_source_ext *)

(** (p4est_gloidx_t) of a uint64_t *)
Definition to_gloidx (x : Z) : Z := signed 8 (x mod 2 ^ 64).

(** src/p4est_communication.c 411-426 *)
Definition equal_gfq (prec N P : Z) : list Z :=
  0 :: map (fun i => partition_cut prec N i P) (zseq 1 (Z.to_nat (P - 1))) ++ [N].

Inductive loaded (St : Type) :=
| Aborted                                  (* SC_CHECK_ABORT *)
| Undef                                  (* undefined behaviour, or behaviour that is not modelled *)
| Loaded (c : conn) (F : forest St (list Z)).
Arguments Aborted {St}.
Arguments Undef {St}.
Arguments Loaded {St} c F.

Section Restore.
  Variable d : dim.
  Variable St : Type.
  Local Notation D := (list Z).
  Variable prec : Z.            (* of long double in p4est_partition_cut_gloidx *)
  (** the source is a buffer, not a file.  sc_io_source_read with data = NULL is
      fseek on a file and may pass the end. *)
  Variable buf : bool.
  Definition skip (n : Z) (s : list Z) : option (list Z) :=
    if buf && (zlen s <? n) then None else Some (skipn (Z.to_nat n) s).

  (** The read at line 4155 (failure or not, content of the array, rest of the
      stream).  Its return value is not stored; line 4157 looks at the one of
      an earlier call. *)
  Variable read_partition : nat -> list Z -> bool * list Z * list Z.

  (** one quadrant, lines 4220-4237.  Coordinates and data, which are read in
      one call if the data is wanted, are taken after one another here. *)
  Definition read_record (load_data : bool) (sds : Z) (s : list Z) : option (list Z * D * list Z) :=
    match take_words 4 sdec (Z.to_nat (nd d + 1)) s with
    | None => None
    | Some (w, s) =>
      if load_data then match take (Z.to_nat sds) s with None => None | Some (x, s) => Some (w, x, s) end
      else if sds >? 0 then match skip sds s with None => None | Some s => Some (w, [], s) end
      else Some (w, [], s)
    end.
  Fixpoint read_records (load_data : bool) (sds : Z) (n : nat) (s : list Z) : option (list Z * list D * list Z) :=
    match n with
    | O => Some ([], [], s)
    | S n' =>
      match read_record load_data sds s with
      | None => None
      | Some (w, x, s) => match read_records load_data sds n' s with
                          | None => None
                          | Some (ws, xs, s) => Some (w ++ ws, x :: xs, s)
                          end
      end
    end.

  (** one rank from the end of the header, lines 4203-4248 *)
  Definition load_rank (load_data : bool) (sds zp a b n : Z) (st : St) (s : list Z) : option (input St D) :=
    match skip (zp + a * comb_size d sds) s with
    | None => None
    | Some s =>
      match read_records load_data sds (Z.to_nat (b - a)) s with
      | None => None
      | Some (ws, xs, s) =>
        match (if n >? b then skip ((n - b) * comb_size d sds) s else Some s) with
        | None => None
        | Some _ => Some (st, ws, if load_data then Some xs else None)
        end
      end
    end.
  Fixpoint load_ranks (load_data : bool) (sds zp n : Z) (gfq : list Z) (ss : list St) (s : list Z) : option (list (input St D)) :=
    match ss, gfq with
    | st :: ss', a :: b :: _ =>
      match load_rank load_data sds zp a b n st s, load_ranks load_data sds zp n (tl gfq) ss' s with
      | Some i, Some l => Some (i :: l)
      | _, _ => None
      end
    | [], _ => Some []
    | _, _ => None
    end.
  (** counts that are negative overflow in the allocation at line 4216 or are
      seeks backwards; not modelled further *)
  Fixpoint ascending (a : Z) (l : list Z) : bool :=
    match l with [] => true | b :: l' => (a <=? b) && ascending b l' end.

  (** The header is read by one rank or by all, with the same outcome.  [ss]
      is a state for every rank. *)
  Definition load (nodata : D) (data_size : Z) (load_data auto : bool) (ss : list St) (s : list Z) : loaded St :=
    let load_data := load_data && negb (data_size =? 0) in
    let P := zlen ss in
    match source d s with
    | Null => Aborted
    | Bad => Undef
    | Got c s1 =>
      match skip (padding (zlen s - zlen s1)) s1 with
      | None => Aborted
      | Some s2 =>
        match take_words 8 dec 6 s2 with
        | None => Aborted
        | Some (h, s3) =>
          let a i := nth i h 0 in
          if negb ((a 0%nat =? ondisk_format d) && (a 1%nat =? 4) && (a 2%nat =? sizeof_quadrant)) then Aborted else
          let sds := a 3%nat in
          let snp := to_topidx (a 5%nat) in
          if load_data && negb ((sds =? data_size) && negb (to_topidx (a 4%nat) =? 0)) then Aborted else
          if negb (auto || (P =? snp)) then Aborted else
          if snp <? 1 then Undef else
          match (if auto then
                   match skip ((snp - 1) * 8) s3 with
                   | None => None
                   | Some s4 => match take_words 8 dec 1 s4 with
                                | Some ([n], s5) => Some (equal_gfq prec (to_gloidx n) P, s5)
                                | _ => None
                                end
                   end
                 else let '(_, l, s4) := read_partition (length ss) s3 in Some (0 :: map to_gloidx l, s4)) with
          | None => Aborted
          | Some (gfq, s4) =>
            match take_words 8 dec (Z.to_nat (c_nt c)) s4 with
            | None => Aborted
            | Some (pt, s5) =>
              let pertree := 0 :: map to_gloidx pt in
              match zget gfq P, zget pertree (c_nt c) with
              | Some n, Some n' =>
                if negb (n =? n') then Aborted else
                if negb (ascending 0 gfq) then Undef else
                match load_ranks load_data sds (padding ((6 + snp + c_nt c) * 8)) n gfq ss s5 with
                | None => Aborted
                | Some ins =>
                  match inflate d St D (c_nt c) nodata gfq pertree ins with
                  | None => Undef
                  | Some F => match forest_is_valid d St D (c_nt c) F with
                              | None => Undef
                              | Some false => Aborted
                              | Some true => Loaded c F
                              end
                  end
                end
              | _, _ => Undef
              end
            end
          end
        end
      end
    end.
End Restore.

(** a source without errors other than the end of the data; [junk] is what is
    in the array after a read that has failed *)
Definition plain_read (junk : list Z) (n : nat) (s : list Z) : bool * list Z * list Z :=
  match take_words 8 dec n s with
  | Some (l, r) => (false, l, r)
  | None => (true, junk, [])
  end.
