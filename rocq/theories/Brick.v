(** * Model of p4est_connectivity_new_brick: src/p4est_connectivity.c 2752-3279

    In 2D the third coordinate is 0, the third size 1 and the third direction is periodic: with
    these values the lines for p8est have no effect on the faces and corners of p4est. *)

From Coq Require Import ZArith List Bool.
From Verif Require Import Quad Spec Neighbor Transform Partition Conn Permute.
Import ListNotations.
Open Scope Z_scope.

(** an array of P4EST_DIM entries *)
Definition xyz := (Z * Z * Z)%type.
Definition cg (c : xyz) (k : Z) : Z := let '(x, y, z) := c in if k =? 0 then x else if k =? 1 then y else z.
Definition tabulate (f : Z -> Z) : xyz := (f 0, f 1, f 2).
(** 0, ..., n - 1 *)
Definition upto (n : Z) : list Z := map Z.of_nat (seq 0 (Z.to_nat n)).

(** SC_LOG2_32 of libsc: the position of the highest bit, and -1 for 0 *)
Definition log2_32 (x : Z) : Z := if x <=? 0 then -1 else Z.log2 x.

(** ** The index of a tree in a box of powers of two *)

(** the array idx, lines 2766-2778 and 2814-2826: the directions rankx[i], ... are numbered in
    ascending order, and the others have -1 *)
Definition present (d : dim) (rk : xyz) (i k : Z) : bool := existsb (fun j => cg rk (i + j) =? k) (upto (nd d - i)).
Definition idx (d : dim) (rk : xyz) (i k : Z) : Z :=
  if present d rk i k then zlen (filter (present d rk i) (upto k)) else -1.

(** lines 2780-2791 for one direction k, id = idx[k]; every direction has its own variable, so
    that the loops over j and k may be exchanged *)
Definition gather (w id : Z) (ti : Z) (logi : Z) : Z :=
  fold_left (fun t j => Z.lor t (Z.shiftr (Z.land ti (Z.shiftl 1 (w * j + id))) ((w - 1) * j + id))) (upto logi) 0.

(** brick_linear_to_xyz: lines 2752-2799 *)
Definition l2x_step (d : dim) (lg rk : xyz) (s : Z * xyz * Z) (i : Z) : Z * xyz * Z :=
  let '(ti, tx, lastlog) := s in
  let logi := cg lg (cg rk i) - lastlog in
  let w := nd d - i in
  (Z.shiftr ti (w * logi),
   tabulate (fun k => cg tx k + (if 0 <=? idx d rk i k then Z.shiftl (gather w (idx d rk i k) ti logi) lastlog else 0)),
   lastlog + logi).
Definition l2x (d : dim) (lg rk : xyz) (ti : Z) : xyz :=
  let '(ti', tx, lastlog) := fold_left (l2x_step d lg rk) (upto (nd d - 1)) (ti, (0, 0, 0), 0) in
  tabulate (fun k => cg tx k + (if k =? cg rk (nd d - 1) then Z.shiftl ti' lastlog else 0)).

(** brick_xyz_to_linear: lines 2801-2845; the loops over j and k *)
Definition spread (w : Z) (id : Z -> Z) (tempx : xyz) (logi : Z) (ti : Z) : Z :=
  fold_left (fun t j => fold_left (fun t k => if 0 <=? id k then Z.lor t (Z.shiftl (Z.land (cg tempx k) (Z.shiftl 1 j)) ((w - 1) * j + id k)) else t)
                                  (upto 3) t) (upto logi) ti.
Definition x2l_step (d : dim) (lg rk tx : xyz) (s : Z * Z) (i : Z) : Z * Z :=
  let '(ti, lastlog) := s in
  let logi := if i =? 0 then lastlog else lastlog - cg lg (cg rk (i - 1)) in
  let w := nd d - i in
  let lastlog' := lastlog - logi in
  (spread w (idx d rk i) (tabulate (fun k => Z.shiftr (cg tx k) lastlog')) logi (Z.shiftl ti (w * logi)), lastlog').
Definition x2l (d : dim) (lg rk tx : xyz) : Z :=
  let lastlog := cg lg (cg rk (nd d - 2)) in
  fst (fold_left (x2l_step d lg rk tx) (rev (upto (nd d - 1))) (Z.shiftr (cg tx (cg rk (nd d - 1))) lastlog, lastlog)).

(** lines 2943-2968: logx and rankx *)
Definition logs (m n p : Z) : xyz := (log2_32 (m - 1) + 1, log2_32 (n - 1) + 1, log2_32 (p - 1) + 1).
Definition ranks (d : dim) (lg : xyz) : xyz :=
  let '(lx, ly, lz) := lg in
  let '(r0, r1) := if lx <=? ly then (0, 1) else (1, 0) in
  if is3 d then
    if lz <? cg lg r0 then (2, r0, r1)
    else if cg lg r1 <=? lz then (r0, r1, 2)
    else (r0, 2, r1)
  else (r0, r1, 2).

Section Brick.
  Variables (d : dim) (m n p : Z) (pa pb pc : bool).
  (** m, n, p and periodic *)
  Definition size (k : Z) : Z := cg (m, n, p) k.
  Definition per (k : Z) : bool := if k =? 0 then pa else if k =? 1 then pb else pc.
  Definition lg : xyz := logs m n p.
  Definition rk : xyz := ranks d lg.
  Definition n_iter : Z := 2 ^ cg lg 0 * 2 ^ cg lg 1 * 2 ^ cg lg 2.
  (** tx < m && ty < n && tz < p *)
  Definition in_box (x : xyz) : bool := (cg x 0 <? m) && (cg x 1 <? n) && (cg x 2 <? p).
  (** tx < m - 1 || periodic_a *)
  Definition inner (x : xyz) (k : Z) : bool := (cg x k <? size k - 1) || per k.
  Definition cflag (x : xyz) : bool := inner x 0 && inner x 1 && inner x 2.
  Definition eflag (x : xyz) (i : Z) : bool :=
    if i =? 0 then inner x 1 && inner x 2 else if i =? 1 then inner x 0 && inner x 2 else inner x 0 && inner x 1.

  (** lines 2981-3039: linear_to_tree, tree_to_corner2 and tree_to_edge2 are written in order;
      tj, tk, tl are the counters *)
  Record numbers := mkn { l2t : list Z; n_tj : Z; tc2 : list Z; n_tk : Z; te2 : list Z; n_tl : Z }.
  Definition number_edge (x : xyz) (s : list Z * Z) (i : Z) : list Z * Z :=
    if eflag x i then (fst s ++ [snd s], snd s + 1) else (fst s ++ [-1], snd s).
  Definition number_step (s : numbers) (ti : Z) : numbers :=
    let x := l2x d lg rk ti in
    if in_box x then
      if cflag x then
        mkn (l2t s ++ [n_tj s]) (n_tj s + 1) (tc2 s ++ [n_tk s]) (n_tk s + 1)
            (te2 s ++ [n_tl s; n_tl s + 1; n_tl s + 1 + 1]) (n_tl s + 1 + 1 + 1)
      else
        let e := number_edge x (number_edge x (number_edge x (te2 s, n_tl s) 0) 1) 2 in
        mkn (l2t s ++ [n_tj s]) (n_tj s + 1) (tc2 s ++ [-1]) (n_tk s) (fst e) (snd e)
    else mkn (l2t s ++ [-1]) (n_tj s) (tc2 s) (n_tk s) (te2 s) (n_tl s).
  Definition number : numbers := fold_left number_step (upto n_iter) (mkn [] 0 [] 0 [] 0).

  (** ** Writing the connectivity: lines 3041-3262 *)

  (** ((tx + ox) + m) % m and so on; the sum is not negative for the offsets used *)
  Definition wrap (x o : xyz) : xyz := tabulate (fun k => (cg x k + cg o k + size k) mod size k).
  (** lines 3056-3061, 3071-3075, 3083-3087: the offsets to the neighbors *)
  Definition foff (i j : Z) : xyz := tabulate (fun k => if i =? k then 2 * j - 1 else 0).
  Definition eoff (i j : Z) : xyz :=
    (if i =? 0 then 0 else 2 * (j mod 2) - 1,
     if i =? 1 then 0 else 2 * (if i =? 0 then j mod 2 else j / 2) - 1,
     if i =? 2 then 0 else 2 * (j / 2) - 1).
  Definition bit (i k : Z) : Z := (i / 2 ^ k) mod 2.
  Definition coff (i : Z) : xyz := tabulate (fun k => if bit i k =? 0 then -1 else 1).

  (** the arrays that are only written in this loop *)
  Inductive arr := TTT | TTF | TTE | ETT | ETE | TTC | CTT | CTC.
  Definition write := (arr * Z * Z)%type.

  Fixpoint mapo {A B} (f : A -> option B) (l : list A) : option (list B) :=
    match l with
    | [] => Some []
    | a :: l' => match f a, mapo f l' with Some b, Some r => Some (b :: r) | _, _ => None end
    end.

  (** the boundary of the box: !periodic[k] && ((coord[k] == 0 && b == 0) || (coord[k] == max[k] && b == 1)) *)
  Definition outer (x : xyz) (k b : Z) : bool :=
    negb (per k) && (((cg x k =? 0) && (b =? 0)) || ((cg x k =? size k - 1) && (b =? 1))).

  Section Tree.
    Variables (N : numbers) (x : xyz) (tj : Z) (tf te tc : list Z).
    Let at_ (l : list Z) (i : Z) : Z := nth (Z.to_nat i) l (-1).
    (** lines 3092-3104 *)
    Definition face_writes (i j : Z) : list write :=
      let l := 2 * i + j in
      if outer x i j then [(TTT, tj * faces d + l, tj); (TTF, tj * faces d + l, l)]
      else [(TTT, tj * faces d + l, at_ tf l); (TTF, tj * faces d + l, i * 2 + (1 - j))].
    (** lines 3106-3145 *)
    Definition edge_writes (i j : Z) : option (list write) :=
      let dir1 := if i =? 0 then 1 else 0 in
      let dir2 := if i =? 2 then 1 else 2 in
      let l := i * 4 + j in
      if outer x dir1 (j mod 2) || outer x dir2 (j / 2) then Some [(TTE, tj * 12 + l, -1)]
      else
        let base := if j =? 0 then at_ te l else if j =? 1 then at_ tf (dir2 * 2) else if j =? 2 then at_ tf (dir1 * 2) else tj in
        match zget (te2 N) (base * 3 + i) with
        | None => None
        | Some t => Some [(TTE, tj * 12 + l, t); (ETT, 4 * t + (3 - j), tj); (ETE, 4 * t + (3 - j), l)]
        end.
    (** lines 3148-3225: the switch *)
    Definition corner_base (i : Z) : Z :=
      if is3 d then nth (Z.to_nat i) [at_ tc 0; at_ te 0; at_ te 4; at_ tf 4; at_ te 8; at_ tf 2; at_ tf 0; tj] (-1)
      else nth (Z.to_nat i) [at_ tc 0; at_ tf 2; at_ tf 0; tj] (-1).
    Definition corner_writes (i : Z) : option (list write) :=
      if outer x 0 (bit i 0) || outer x 1 (bit i 1) || outer x 2 (bit i 2) then Some [(TTC, tj * children d + i, -1)]
      else
        match zget (tc2 N) (corner_base i) with
        | None => None
        | Some t => Some [(TTC, tj * children d + i, t); (CTT, t * children d + (children d - 1 - i), tj);
                          (CTC, t * children d + (children d - 1 - i), i)]
        end.
  End Tree.

  (** the pairs (i, j) of the loops *)
  Definition face_loop : list (Z * Z) := flat_map (fun i => map (fun j => (i, j)) (upto 2)) (upto (nd d)).
  Definition edge_loop3 : list (Z * Z) := if is3 d then flat_map (fun i => map (fun j => (i, j)) (upto 4)) (upto 3) else [].

  (** one tree.  edges, corners: the arrays of edges and corners are not NULL *)
  Definition tree_writes (N : numbers) (edges corners : bool) (x : xyz) : option (list write) :=
    let at_linear c := zget (l2t N) (x2l d lg rk c) in
    match at_linear x,
          mapo (fun ij => at_linear (wrap x (foff (fst ij) (snd ij)))) face_loop,
          mapo (fun ij => at_linear (wrap x (eoff (fst ij) (snd ij)))) edge_loop3,
          mapo (fun i => at_linear (wrap x (coff i))) (upto (children d)) with
    | Some tj, Some tf, Some te, Some tc =>
      match (if edges then mapo (fun ij => edge_writes N x tj tf te (fst ij) (snd ij)) edge_loop3 else Some []),
            (if corners then mapo (corner_writes N x tj tf te tc) (upto (children d)) else Some []) with
      | Some we, Some wc =>
        Some (flat_map (fun ij => face_writes x tj tf (fst ij) (snd ij)) face_loop ++ concat we ++ concat wc)
      | _, _ => None
      end
    | _, _, _, _ => None
    end.

  (** an array after all writes; None for a write outside.  The arrays are not initialised,
      which is -2 here. *)
  Fixpoint store (ws : list write) (a : arr) (l : list Z) : option (list Z) :=
    match ws with
    | [] => Some l
    | (b, k, v) :: rest =>
      if (match a, b with TTT, TTT | TTF, TTF | TTE, TTE | ETT, ETT | ETE, ETE | TTC, TTC | CTT, CTT | CTC, CTC => true | _, _ => false end)
      then if in_range k 0 (zlen l) then store rest a (put l k v) else None
      else store rest a l
    end.
  Definition array (ws : list write) (a : arr) (len : Z) : option (list Z) := store ws a (repeat (-2) (Z.to_nat len)).

  (** lines 3226-3259: the vertices of one tree.  The state is tree_to_vertex and the points written
      to the array of vertices; vcount is the number of points. *)
  Definition vertex_step (N : numbers) (x : xyz) (s : option (list Z * list xyz)) (i : Z) : option (list Z * list xyz) :=
    match s, zget (l2t N) (x2l d lg rk x) with
    | Some (ttv, vs), Some tj =>
      let copy k step :=
        match zget (l2t N) (x2l d lg rk (wrap x (foff k 0))) with
        | None => None
        | Some t =>
          match zget ttv (t * children d + i + step) with
          | None => None
          | Some v => if in_range (tj * children d + i) 0 (zlen ttv) then Some (put ttv (tj * children d + i) v, vs) else None
          end
        end in
      if is3 d && (0 <? cg x 2) && (bit i 2 =? 0) then copy 2 4
      else if (0 <? cg x 1) && (bit i 1 =? 0) then copy 1 2
      else if (0 <? cg x 0) && (bit i 0 =? 0) then copy 0 1
      else if in_range (tj * children d + i) 0 (zlen ttv)
           then Some (put ttv (tj * children d + i) (zlen vs), vs ++ [tabulate (fun k => cg x k + bit i k)])
           else None
    | _, _ => None
    end.
  Definition tree_vertices (N : numbers) (s : option (list Z * list xyz)) (x : xyz) : option (list Z * list xyz) :=
    fold_left (vertex_step N x) (upto (children d)) s.

  (** lines 2856-2887 *)
  Definition csize (k : Z) : Z := if per k then size k else size k - 1.
  Definition num_trees : Z := m * n * p.
  Definition num_corners : Z := csize 0 * csize 1 * csize 2.
  Definition num_edges : Z := if is3 d then m * csize 1 * csize 2 + csize 0 * n * csize 2 + csize 0 * csize 1 * p else 0.
  Definition num_vertices : Z := (m + 1) * (n + 1) * (if is3 d then p + 1 else 1).

  (** None for an overflow of the type int32_t of p4est_topidx_t *)
  Definition fits : bool :=
    forallb (fun v => v <=? 2147483647) [n_iter; 3 * num_vertices; (if is3 d then 12 else 4) * num_trees; children d * num_trees; 4 * num_edges; children d * num_corners].

  (** dbl: the bit pattern of an integer converted to double *)
  Definition brick (dbl : Z -> Z) : option conn :=
    if negb fits then None
    else
    let N := number in
    let xs := filter in_box (map (l2x d lg rk) (upto n_iter)) in
    match mapo (tree_writes N (0 <? num_edges) (0 <? num_corners)) xs,
          fold_left (tree_vertices N) xs (Some (repeat (-1) (Z.to_nat (children d * num_trees)), [])) with
    | Some wss, Some (ttv, vs) =>
      let ws := concat wss in
      let ne := if 0 <? num_edges then num_edges else 0 in
      let nc := if 0 <? num_corners then num_corners else 0 in
      let tn b := if (0 <? b) then num_trees else 0 in
      match array ws TTT (faces d * num_trees), array ws TTF (faces d * num_trees),
            array ws TTE (12 * tn ne), array ws ETT (4 * ne), array ws ETE (4 * ne),
            array ws TTC (children d * tn nc), array ws CTT (children d * nc), array ws CTC (children d * nc) with
      | Some ttt, Some ttf, Some tte, Some ett, Some ete, Some ttc, Some ctt, Some ctc =>
        Some (mkconn num_vertices num_trees num_edges num_corners
                     (Some (flat_map (fun q => [dbl (cg q 0); dbl (cg q 1); dbl (cg q 2)]) vs)) (Some ttv) 0 None
                     ttt ttf tte (if is3 d then map (fun i => 4 * i) (upto (num_edges + 1)) else []) ett ete
                     ttc (map (fun i => children d * i) (upto (num_corners + 1))) ctt ctc)
      | _, _, _, _, _, _, _, _ => None
      end
    | _, _ => None
    end.
End Brick.

(** p4est_connectivity_new_brick and p8est_connectivity_new_brick; the assertion m, n, p > 0 *)
Definition new_brick (d : dim) (dbl : Z -> Z) (m n p : Z) (pa pb pc : bool) : option conn :=
  if is3 d then brick d m n p pa pb pc dbl else brick d m n 1 pa pb true dbl.
