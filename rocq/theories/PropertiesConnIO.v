(** * Property theorems C43, C44 (from a file): writing and reading a connectivity *)

From Coq Require Import ZArith List Bool Lia ZifyBool.
From Verif Require Import Quad Spec Partition Conn ConnLemmas ConnBounds PropertiesConn Bytes ConnIO ConnIOLemmas.
Import ListNotations.
Open Scope Z_scope.

(** For every connectivity that p4est_connectivity_is_valid accepts (with arrays as
    p4est_connectivity_new allocates them): p4est_connectivity_sink reads inside the arrays;
    p4est_connectivity_source reads back from its bytes exactly this connectivity, and leaves
    what follows in the stream. *)
Theorem C43_round_trip : forall d version c,
  storable d c -> conn_is_valid d c = Some true -> length version = 24%nat -> Forall u8 version ->
  exists bytes, sink d version c = Some bytes /\ Forall u8 bytes /\ forall rest, source d (bytes ++ rest) = Got c rest.
Proof. exact round_trip. Qed.
Print Assumptions C43_round_trip.

(** Whatever the bytes: p4est_connectivity_source returns only connectivities that
    p4est_connectivity_is_valid accepts, with arrays of the right sizes; and if the attribute
    size does not overflow, then writing and reading it again gives the same connectivity. *)
Theorem C43_accepts_valid : forall d s c rest, Forall u8 s -> source d s = Got c rest ->
  conn_is_valid d c = Some true /\ allocated d c /\
  (c_nt c * c_attr c < 2 ^ 64 -> forall version, length version = 24%nat -> Forall u8 version ->
     exists bytes, sink d version c = Some bytes /\ source d bytes = Got c []).
Proof.
  intros d s c rest F E. destruct (accepted d s c rest F E) as (V & AL & _ & ST). split; [exact V|]. split; [exact AL|].
  intros NA version L FV. destruct (round_trip d version c (ST NA) V L FV) as (bytes & S1 & _ & S2).
  exists bytes. split; [exact S1|]. specialize (S2 []). rewrite app_nil_r in S2. exact S2.
Qed.
Print Assumptions C43_accepts_valid.

(** Every proper prefix of what p4est_connectivity_sink writes is refused, without a read
    outside of an array. *)
Theorem C43_truncated : forall d version c bytes,
  storable d c -> conn_is_valid d c = Some true -> length version = 24%nat -> Forall u8 version ->
  sink d version c = Some bytes -> forall p q, bytes = p ++ q -> q <> [] -> source d p = Null.
Proof.
  intros d version c bytes ST V L FV S1 p q E Q. destruct (round_trip d version c ST V L FV) as (bytes' & S1' & _ & R).
  rewrite S1 in S1'. injection S1' as <-. specialize (R []). rewrite app_nil_r, E in R.
  destruct (source d p) as [| |c' r] eqn:SP; [reflexivity| |].
  - pose proof (source_app d p q) as A. rewrite SP in A. rewrite A in R by discriminate. discriminate.
  - pose proof (source_app d p q) as A. rewrite SP in A. rewrite A in R by discriminate. cbn [out_app] in R. injection R as _ R.
    apply app_eq_nil in R as (_ & R). contradiction.
Qed.
Print Assumptions C43_truncated.

(** a connectivity with vertices, an attribute and a corner *)
Definition full2 : conn :=
  mkconn 4 1 0 1 (Some [0; 1; 2 ^ 62; 3; 4; 5; 6; 7; 8; 9; 10; 2 ^ 64 - 1]) (Some [0; 1; 2; 3]) 3 (Some [7; 8; 255])
         [0; 0; 0; 0] [1; 0; 3; 2] [] [] [] [] [0; 0; 0; 0] [0; 4] [0; 0; 0; 0] [0; 1; 2; 3].
Ltac forall_lia := repeat (constructor; [unfold u8, u64, i32, i8; lia|]); constructor.
Example C43_example : storable D2 full2 /\ conn_is_valid D2 full2 = Some true /\
  exists bytes, sink D2 (repeat 46 24) full2 = Some bytes /\ length bytes = 291%nat /\ source D2 (bytes ++ [1; 2; 3]) = Got full2 [1; 2; 3] /\
    source D2 (firstn 290 bytes) = Null.
Proof.
  split.
  { unfold storable, allocated, opt_array, full2.
    cbn [c_nv c_nt c_ne c_nc c_vertices c_ttv c_attr c_tta c_ttt c_ttf c_tte c_eoff c_ett c_ete c_ttc c_coff c_ctt c_ctc children faces].
    repeat match goal with |- _ /\ _ => split end; try (intros; discriminate); try (cbn; lia); try reflexivity; try forall_lia; auto.
    - intros _. eexists. split; reflexivity.
    - intros x E. injection E as <-. lia. }
  split; [vm_compute; reflexivity|].
  eexists. split; [vm_compute; reflexivity|]. split; [vm_compute; reflexivity|]. split; vm_compute; reflexivity.
Qed.

(** The size of the attributes is computed with overflow: p4est_connectivity_source accepts a
    file whose connectivity claims 2^63 bytes for each of two trees, and has none. *)
Definition two_boundary (attr : Z) : list Z :=
  magic8 D2 ++ repeat 0 24 ++ flat_map (enc 8) [ondisk_format D2; 4; 0; 2; 0; 0; 0; 0; attr; 0] ++
  flat_map (enc 4) [0; 0; 0; 0; 1; 1; 1; 1] ++ [0; 1; 2; 3; 0; 1; 2; 3] ++ flat_map (enc 4) [0].
Theorem C43_attr_size_refuted : exists s c, source D2 s = Got c [] /\ c_tta c = Some [] /\ c_nt c * c_attr c = 2 ^ 64.
Proof. exists (two_boundary (2 ^ 63)). eexists. split; [vm_compute; reflexivity|]. split; vm_compute; reflexivity. Qed.
Print Assumptions C43_attr_size_refuted.

(** C44 for file contents: there are files on which p4est_connectivity_source (and so
    p4est_connectivity_load, p4est_load) reads outside of its arrays. *)
Definition evil2 : list Z :=
  magic8 D2 ++ repeat 0 24 ++ flat_map (enc 8) [ondisk_format D2; 4; 0; 1; 0; 0; 0; 5; 0; 0] ++
  flat_map (enc 4) [0; 0; 0; 0] ++ [0; 1; 2; 3] ++ flat_map (enc 4) [5].
Definition evil2_corner : list Z :=
  magic8 D2 ++ repeat 0 24 ++ flat_map (enc 8) [ondisk_format D2; 4; 0; 1; 0; 0; 1; 0; 0; 0] ++
  flat_map (enc 4) [7; -1; -1; -1] ++ flat_map (enc 4) [0; 0; 0; 0] ++ [0; 1; 2; 3] ++ flat_map (enc 4) [0; 0].
Definition evil3 : list Z :=
  magic8 D3 ++ repeat 0 24 ++ flat_map (enc 8) [ondisk_format D3; 4; 0; 1; 0; 5; 0; 0; 0; 0] ++
  flat_map (enc 4) [0; 0; 0; 0; 0; 0] ++ [0; 1; 2; 3; 4; 5] ++ flat_map (enc 4) [5] ++ flat_map (enc 4) [0].
Lemma bytes_u8 s : forallb (fun b => (0 <=? b) && (b <? 256)) s = true -> Forall u8 s.
Proof. rewrite forallb_forall, Forall_forall. intros H x I. specialize (H x I). unfold u8. lia. Qed.
Theorem C44_source_refuted : exists s s' s3, Forall u8 s /\ Forall u8 s' /\ Forall u8 s3 /\
  source D2 s = Bad /\ source D2 s' = Bad /\ source D3 s3 = Bad.
Proof.
  exists evil2, evil2_corner, evil3. split; [apply bytes_u8; reflexivity|]. split; [apply bytes_u8; reflexivity|].
  split; [apply bytes_u8; reflexivity|]. split; [vm_compute; reflexivity|]. split; vm_compute; reflexivity.
Qed.
Print Assumptions C44_source_refuted.
