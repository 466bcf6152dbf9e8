(** Specification vocabulary for the edge transformation. *)
From Verif Require Export EdgeModel XVxSpec.
Open Scope R_scope.

Definition valid_edge (e : edge) : Prop := valid_mesh (e_per e) (e_pts e) (e_fr e) (e_n e).

(** the coordinate of an index; first and last points of the edge (the last one of a periodic edge is
    the end of the period) *)
Definition pt (e : edge) (i : Z) : R := nth (Z.to_nat i) (e_pts e) 0.
Definition e_last (e : edge) : Z := if e_per e then (e_fr e + Z.of_nat (e_n e))%Z else (e_fr e + Z.of_nat (e_n e) - 1)%Z.
Definition e_min (e : edge) : R := pt e (e_fr e).
Definition e_max (e : edge) : R := pt e (e_last e).
Definition in_range (e : edge) (i : Z) : Prop := (e_fr e <= i < e_fr e + Z.of_nat (e_n e))%Z.

Definition uniform (e : edge) : Prop := exists h, forall i, (e_fr e <= i <= e_last e)%Z ->
  pt e i = e_min e + IZR (i - e_fr e) * h.

(** the documented affine map of one edge onto the other *)
Definition edge_map (agree : bool) (cur tgt : edge) (x : R) : R :=
  let s := (x - e_min cur) / (e_max cur - e_min cur) * (e_max tgt - e_min tgt) in
  if agree then e_min tgt + s else e_max tgt - s.

(** the end of a period is its beginning *)
Definition canon (e : edge) (y : R) : R :=
  if e_per e then (if Req_EM_T y (e_max e) then e_min e else y) else y.

(** coordinates that belong to an edge *)
Definition on_edge (e : edge) (x : R) : Prop :=
  e_min e <= x <= e_max e /\ (e_per e = true -> x < e_max e).

(** the exact counterparts of two edges: index [i] of [cur] and [j] of [tgt] are the same point of the
    interface *)
Definition equivalent (agree : bool) (cur tgt : edge) (i j : Z) : Prop :=
  canon tgt (edge_map agree cur tgt (pt cur i)) = pt tgt j.

(** two points of the grid are at least [d] apart *)
Definition separated (d : R) (e : edge) : Prop := forall i, (e_fr e <= i < e_last e)%Z -> d <= pt e (i + 1) - pt e i.

(** where an index of [tgt] lies on [cur] *)
Definition image (agree : bool) (cur tgt : edge) (j : Z) : R := canon cur (edge_map agree tgt cur (pt tgt j)).

(** an edge with [n] equal cells over [0, 1], for the counterexamples *)
Definition unit_edge (n : nat) (per : bool) : edge :=
  Edge (map (fun i => INR i / INR n) (seq 0 (n + 1))) 0 (if per then n else (n + 1)%nat) per.

(** the matched pairs of indices of a range of [n] indices from [fr], in order *)
Definition conf_pairs (m : Z -> option Z) (fr : Z) (n : nat) : list (Z * Z) :=
  flat_map (fun k => match m (fr + Z.of_nat k)%Z with Some j => [((fr + Z.of_nat k)%Z, j)] | None => [] end) (seq 0 n).
