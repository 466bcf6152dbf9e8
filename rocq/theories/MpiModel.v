(** Model of src/mpi_parallelisation: MPILayout::distribute_idx_range and
    MPITransposeAllToAll.  Template type sequences are modelled by lists of dimension
    numbers, index ranges by lists (dimension, (front, size)), fields by flat row-major
    buffers (DDC's default layout_right), one per MPI rank. *)
From Verif Require Export Lib.

(** ** Index ranges and layouts *)
Definition idx_range := list (nat * (Z * nat)).

(** src/mpi_parallelisation/impilayout.hpp 14-25: IMPILayout<IdxRangeData, DistributedDim...>:
    order of the dimensions of the data, distributed dimensions in the order given. *)
Record layout := { l_order : list nat; l_distr : list nat }.

Definition in_tags (d : nat) (s : list nat) : bool := existsb (Nat.eqb d) s.

(** ddc::select<Dim>(idx_range): front and size along one dimension (a dimension which is
    not in the range does not compile: (0,0) is never read for the layouts considered). *)
Fixpoint select (d : nat) (g : idx_range) : Z * nat :=
  match g with
  | [] => (0%Z, 0%nat)
  | (d', r) :: g' => if Nat.eqb d d' then r else select d g'
  end.
Definition nprod (l : list nat) : nat := fold_right Nat.mul 1%nat l.
(** IdxRange::size() *)
Definition range_size (g : idx_range) : nat := nprod (map (fun x => snd (snd x)) g).
(** conversion of an index range to a sub/re-ordered index range *)
Definition sub_range (ds : list nat) (g : idx_range) : idx_range := map (fun d => (d, select d g)) ds.

(** mpilayout.hpp 87-107 (last dimension) and 122-162 (head dimension and recursion). *)
Fixpoint internal_distribute (distr : list nat) (g : idx_range) (comm rank : nat) : res idx_range :=
  match g with
  | [] => Ok []   (* not instantiable *)
  | [(d, (front, size))] =>
      if in_tags d distr then
        if negb (Nat.eqb (size mod comm) 0) then Throw
        else
          let elems := (size / comm)%nat in
          Ok [(d, ((front + Z.of_nat (rank * elems))%Z, elems))]
      else
        let* _ := check (Nat.eqb comm 1) in
        Ok [(d, (front, size))]
  | (d, (front, size)) :: rest =>
      if in_tags d distr then
        let n_ranks_along_dim := Nat.gcd comm size in
        let n_elems_lower_dims := (comm / n_ranks_along_dim)%nat in
        let rank_along_dim := (rank / n_elems_lower_dims)%nat in
        let remaining_rank := (rank mod n_elems_lower_dims)%nat in
        let elems := (size / n_ranks_along_dim)%nat in
        let local := (d, ((front + Z.of_nat (rank_along_dim * elems))%Z, elems)) in
        let* remaining := internal_distribute distr rest n_elems_lower_dims remaining_rank in
        Ok (local :: remaining)
      else
        let* remaining := internal_distribute distr rest comm rank in
        Ok ((d, (front, size)) :: remaining)
  end.

(** mpilayout.hpp 59-73 *)
Definition distribute_idx_range (distr : list nat) (g : idx_range) (comm rank : nat) : res idx_range :=
  if negb (Nat.eqb (range_size (sub_range distr g) mod comm) 0) then Throw
  else internal_distribute distr g comm rank.

(** ** Multi-dimensional row-major buffers *)
(** mpitools.hpp 12-17: MPIDim<d> is the artificial dimension of the ranks along d. *)
Inductive tag := Dim (d : nat) | MPIDim (d : nat).
Definition tag_eqb (a b : tag) : bool :=
  match a, b with
  | Dim x, Dim y => Nat.eqb x y
  | MPIDim x, MPIDim y => Nat.eqb x y
  | _, _ => false
  end.
Definition shape := list (tag * nat).
Definition tags_of (s : shape) : list tag := map fst s.
Definition shape_size (s : shape) : nat := nprod (map snd s).
(** position of a multi-index (offsets from the fronts) in a layout_right buffer *)
Fixpoint offset (s : shape) (idx : tag -> nat) : nat :=
  match s with
  | [] => 0%nat
  | (t, _) :: s' => (idx t * shape_size s' + offset s' idx)%nat
  end.
(** the k-th multi-index of ddc::parallel_for_each over a domain *)
Fixpoint decode (s : shape) (k : nat) (t : tag) : nat :=
  match s with
  | [] => 0%nat
  | (t', _) :: s' => if tag_eqb t t' then (k / shape_size s')%nat else decode s' (k mod shape_size s') t
  end.

Section Buffers.
  Variable A : Type.

  (** src/utils/transpose.hpp 22-86: transpose_layout.  One loop over all multi-indices of
      the source; the split into 6 parallel and n-6 serial dimensions above 6 dimensions
      (65-84) visits the same set of multi-indices and is not modelled. *)
  Definition transpose_layout (dst_shape : shape) (dst : list A) (src_shape : shape) (src : list A)
    : res (list A) :=
    for_loop (shape_size src_shape)
      (fun k acc =>
         let* dst := acc in
         let idx := decode src_shape k in
         let* v := rd src (Z.of_nat (offset src_shape idx)) in
         wr dst (Z.of_nat (offset dst_shape idx)) v)
      (Ok dst).

  (** MPI_Alltoall with equal counts (MPI standard): block r of the send buffer of rank q
      arrives as block q of the receive buffer of rank r. A buffer shorter than
      comm_size * count is undefined behaviour. *)
  Definition block (count r : nat) (b : list A) : list A := firstn count (skipn (r * count) b).
  Definition mpi_alltoall (comm sendcount recvcount : nat) (send recv : list (list A)) : res (list (list A)) :=
    if Nat.eqb sendcount recvcount
       && Nat.eqb (length send) comm && Nat.eqb (length recv) comm
       && forallb (fun b => Nat.leb (comm * sendcount) (length b)) send
       && forallb (fun b => Nat.leb (comm * recvcount) (length b)) recv
    then Ok (map (fun r => concat (map (block sendcount r) send)
                           ++ skipn (comm * recvcount) (nth r recv [])) (seq 0 comm))
    else Ub.
End Buffers.
Arguments transpose_layout {A}.
Arguments mpi_alltoall {A}.
Arguments block {A}.

(** ** The transpose operator *)
(** mpitools.hpp 86-102, 155-175: insert MPIDim<d> before d, for every d of the sequence. *)
Fixpoint insert_before (x : tag) (before : tag) (s : list tag) : list tag :=
  match s with
  | [] => []
  | h :: t => if tag_eqb h before then x :: h :: t else h :: insert_before x before t
  end.
Fixpoint insert_mpi_tags (mpis : list nat) (s : list tag) : list tag :=
  match mpis with
  | [] => s
  | d :: rest => insert_mpi_tags rest (insert_before (MPIDim d) (Dim d) s)
  end.
(** ddc::type_seq_merge_t: union, first sequence first *)
Definition type_seq_merge (a b : list tag) : list tag :=
  a ++ filter (fun t => negb (existsb (tag_eqb t) a)) b.

(** mpitransposealltoall.hpp 343-353: number of ranks along each distributed dimension. *)
Definition get_distribution (distr : list nat) (local global : idx_range) : res (list (nat * nat)) :=
  fold_right
    (fun d acc =>
       let* l := acc in
       let n := snd (select d local) in
       if Nat.eqb n 0 then Ub else Ok ((d, (snd (select d global) / n)%nat) :: l))
    (Ok []) distr.

(** state of the operator built by the constructor *)
Record transpose_op := {
  t_local1 : idx_range; t_local2 : idx_range;
  t_mpi1 : list (nat * nat); t_mpi2 : list (nat * nat)
}.

(** mpitransposealltoall.hpp 62-96: constructor on rank [rank]; [g] gives front and size of every
    dimension of the global index range. *)
Definition construct (L1 L2 : layout) (g : idx_range) (comm rank : nat) : res transpose_op :=
  let g1 := sub_range (l_order L1) g in
  let g2 := sub_range (l_order L2) g in
  let n1 := range_size (sub_range (l_distr L1) g1) in
  if Nat.ltb n1 comm then Throw
  else if negb (Nat.eqb (n1 mod comm) 0) then Throw
  else
    let* local1 := distribute_idx_range (l_distr L1) g1 comm rank in
    let* local2 := distribute_idx_range (l_distr L2) g2 comm rank in
    let* m1 := get_distribution (l_distr L1) local1 g1 in
    let* m2 := get_distribution (l_distr L2) local2 g2 in
    Ok {| t_local1 := local1; t_local2 := local2; t_mpi1 := m1; t_mpi2 := m2 |}.

(** extent of a (possibly artificial) dimension in input_mpi_idx_range / output_mpi_idx_range
    (268-277): from the MPI index range, from the received field for the scattered dimensions,
    from the sent field for the gathered and the batch dimensions. *)
Fixpoint assoc (d : nat) (l : list (nat * nat)) : nat :=
  match l with
  | [] => 0%nat
  | (d', n) :: l' => if Nat.eqb d d' then n else assoc d l'
  end.
Definition mpi_extent (mpi : list (nat * nat)) (scattered : list nat) (recv send : idx_range) (t : tag) : nat :=
  match t with
  | MPIDim d => assoc d mpi
  | Dim d => if in_tags d scattered then snd (select d recv) else snd (select d send)
  end.
Definition with_extents (ext : tag -> nat) (ts : list tag) : shape := map (fun t => (t, ext t)) ts.

Section Transpose.
  Variable A : Type.
  Variable uninit : A.  (** content of a freshly allocated buffer *)

  (** transpose_to (173-317) up to the MPI call, on one rank: the send buffer of the alltoall.
      When the order is already the good one the code uses a view instead of a copy
      (transpose.hpp 113-114): same content. *)
  Definition before_alltoall (Lin Lout : layout) (lin lout : idx_range) (mpi_in mpi_out : list (nat * nat))
             (send : list A) : res (list A) :=
    let ext := mpi_extent mpi_out (l_distr Lout) lout lin in
    let ordered := map Dim (l_order Lin) in
    let in_shape := with_extents ext (insert_mpi_tags (l_distr Lout) ordered) in
    let a2a_shape := with_extents ext (type_seq_merge (map MPIDim (l_distr Lout)) ordered) in
    let* _ := check (Nat.eqb (shape_size in_shape) (range_size lin)) in
    transpose_layout a2a_shape (repeat uninit (shape_size a2a_shape)) in_shape send.

  (** transpose_to after the MPI call: copy of the received buffer to the output. *)
  Definition after_alltoall (Lin Lout : layout) (lin lout : idx_range) (mpi_in mpi_out : list (nat * nat))
             (received recv : list A) : res (list A) :=
    let ext := mpi_extent mpi_in (l_distr Lout) lout lin in
    let out_shape := with_extents ext (insert_mpi_tags (l_distr Lin) (map Dim (l_order Lout))) in
    let a2a_shape := with_extents ext (type_seq_merge (map MPIDim (l_distr Lin)) (map Dim (l_order Lin))) in
    let* _ := check (Nat.eqb (shape_size out_shape) (range_size lout)) in
    transpose_layout out_shape recv a2a_shape received.

  (** size of the buffer allocated for the result of the alltoall (300-301) *)
  Definition recv_count (Lin Lout : layout) (lin lout : idx_range) (mpi_in : list (nat * nat)) : nat :=
    shape_size (with_extents (mpi_extent mpi_in (l_distr Lout) lout lin)
                  (type_seq_merge (map MPIDim (l_distr Lin)) (map Dim (l_order Lin)))).

  Fixpoint mapM {X Y} (f : X -> res Y) (l : list X) : res (list Y) :=
    match l with
    | [] => Ok []
    | x :: l' => let* y := f x in let* ys := mapM f l' in Ok (y :: ys)
    end.

  (** One collective call of the operator on all ranks of a communicator of size [comm]
      (operator() 137-156 and transpose_to 173-317 with [forward] = from Layout1 to Layout2;
      call_all_to_all 327-341).  All ranks use the same counts. *)
  Definition transpose_world (forward : bool) (L1 L2 : layout) (g : idx_range) (comm : nat)
             (send recv : list (list A)) : res (list (list A)) :=
    let Lin := if forward then L1 else L2 in
    let Lout := if forward then L2 else L1 in
    let loc_in o := if forward then t_local1 o else t_local2 o in
    let loc_out o := if forward then t_local2 o else t_local1 o in
    let mpi_in o := if forward then t_mpi1 o else t_mpi2 o in
    let mpi_out o := if forward then t_mpi2 o else t_mpi1 o in
    let* ops := mapM (construct L1 L2 g comm) (seq 0 comm) in
    let* sb := mapM (fun r =>
        let* o := rd ops (Z.of_nat r) in
        let* b := rd send (Z.of_nat r) in
        before_alltoall Lin Lout (loc_in o) (loc_out o) (mpi_in o) (mpi_out o) b) (seq 0 comm) in
    let* o0 := rd ops 0 in
    let* b0 := rd sb 0 in
    let rc := recv_count Lin Lout (loc_in o0) (loc_out o0) (mpi_in o0) in
    let* rb := mpi_alltoall comm (length b0 / comm) (rc / comm) sb (repeat (repeat uninit rc) comm) in
    mapM (fun r =>
        let* o := rd ops (Z.of_nat r) in
        let* b := rd rb (Z.of_nat r) in
        let* out := rd recv (Z.of_nat r) in
        after_alltoall Lin Lout (loc_in o) (loc_out o) (mpi_in o) (mpi_out o) b out) (seq 0 comm).
End Transpose.
Arguments transpose_world {A}.
Arguments before_alltoall {A}.
Arguments after_alltoall {A}.

(** Field access send_field(idx) on one rank: [idx] is a global index of the local range. *)
Definition local_shape (lr : idx_range) : shape := map (fun x => (Dim (fst x), snd (snd x))) lr.
Definition field_at {A} (lr : idx_range) (buf : list A) (idx : nat -> Z) : res A :=
  rd buf (Z.of_nat (offset (local_shape lr)
    (fun t => match t with Dim d => Z.to_nat (idx d - fst (select d lr)) | MPIDim _ => 0%nat end))).
