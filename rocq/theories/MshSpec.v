(** Specification of meshes and of the command line, without reference to the code. *)
From Coq Require Import String Ascii DecimalString.
From Verif Require Import Lib.
Open Scope R_scope.

(** ** Meshes *)
(** a subdivision of [mn, mx] in n cells: n + 1 points, from mn to mx, each one greater than the one before *)
Definition subdivision (mn mx : R) (n : nat) (l : list R) : Prop :=
  length l = (n + 1)%nat /\ nth 0 l 0 = mn /\ nth n l 0 = mx /\
  forall i, (i < n)%nat -> nth i l 0 < nth (i + 1) l 0.
(** the same with possibly empty cells *)
Definition weak_subdivision (mn mx : R) (n : nat) (l : list R) : Prop :=
  length l = (n + 1)%nat /\ nth 0 l 0 = mn /\ nth n l 0 = mx /\
  forall i, (i < n)%nat -> nth i l 0 <= nth (i + 1) l 0.

(** the points of a list, each one greater than the one before *)
Definition increasing (l : list R) : Prop :=
  forall i j, (i < j < length l)%nat -> nth i l 0 < nth j l 0.

(** [b 0], ..., [b n] are the break points; the number of points of l in the closed cell [b (k-1), b k] *)
Definition in_cell (b : nat -> R) (k : nat) (x : R) : bool :=
  if Rle_lt_dec (b (k - 1)%nat) x then if Rle_lt_dec x (b k) then true else false else false.
Definition points_in_cell (b : nat -> R) (k : nat) (l : list R) : nat :=
  length (filter (in_cell b k) l).

(** ** The command line *)
Open Scope string_scope.
(** a path whose last component ends with the extension, after at least one other character *)
Definition has_extension (ext path : string) : Prop :=
  exists dir stem,
    path = dir ++ stem ++ ext /\ stem <> "" /\ (forall a b, stem <> a ++ "/" ++ b) /\
    (dir = "" \/ exists d, dir = d ++ "/").
(** the decimal representation of an integer, with a minus sign when it is negative (Coq's standard library) *)
Definition decimal (z : Z) : string := NilZero.string_of_int (Z.to_int z).
