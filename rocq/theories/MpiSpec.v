(** Specification vocabulary for the MPI layouts: independent of how ranges are computed. *)
From Verif Require Export MpiModel.
From Coq Require Import Permutation.

(** A global index lies in an index range. *)
Definition in_range (idx : nat -> Z) (lr : idx_range) : Prop :=
  forall d f n, In (d, (f, n)) lr -> (f <= idx d < f + Z.of_nat n)%Z.

Definition dims (g : idx_range) : list nat := map fst g.

(** A collection of sub-ranges, one per rank, partitions the global range: every global index
    is owned by exactly one rank and ranks own only global indices. *)
Definition partitions (comm : nat) (local : nat -> idx_range) (g : idx_range) : Prop :=
  (forall idx, in_range idx g -> exists r, (r < comm)%nat /\ in_range idx (local r) /\
      forall r', (r' < comm)%nat -> in_range idx (local r') -> r' = r) /\
  (forall r idx, (r < comm)%nat -> in_range idx (local r) -> in_range idx g).

(** The buffers of all ranks hold the global field F in the given local ranges. *)
Definition holds_field {A} (comm : nat) (local : nat -> idx_range) (bufs : list (list A))
           (F : (nat -> Z) -> A) : Prop :=
  length bufs = comm /\
  forall r, (r < comm)%nat ->
    exists b, nth_error bufs r = Some b /\ length b = range_size (local r) /\
      forall idx, in_range idx (local r) -> field_at (local r) b idx = Ok (F idx).

(** Product of the sizes of the distributed dimensions. *)
Definition distributed_size (distr : list nat) (g : idx_range) : nat :=
  nprod (map (fun d => snd (select d g)) distr).

(** A layout is well formed for a global range: its dimensions are distinct dimensions of the range
    and the distributed dimensions are some of them, listed in the order of the data. *)
Definition good_layout (g : idx_range) (L : layout) : Prop :=
  NoDup (l_order L) /\ incl (l_order L) (dims g) /\
  filter (fun d => in_tags d (l_distr L)) (l_order L) = l_distr L.

(** well-formedness of a pair of layouts for a global range and a communicator *)
Definition compatible (g : idx_range) (L1 L2 : layout) (P : nat) : Prop :=
  good_layout g L1 /\ good_layout g L2 /\ Permutation (l_order L1) (l_order L2) /\
  (forall d, In d (l_distr L1) -> ~ In d (l_distr L2)) /\ (0 < P)%nat /\
  Nat.divide P (distributed_size (l_distr L1) g) /\ Nat.divide P (distributed_size (l_distr L2) g) /\
  (forall d, In d (l_order L1) -> (0 < snd (select d g))%nat).


(** the local ranges the library gives to the ranks of a communicator for a layout *)
Definition layout_ranges (g : idx_range) (L : layout) (P : nat) (local : nat -> idx_range) : Prop :=
  forall r, (r < P)%nat -> distribute_idx_range (l_distr L) (sub_range (l_order L) g) P r = Ok (local r).

