(** Specification of the utilities: what printing, configuration and durations should mean. *)
From Coq Require Import String Ascii.
From Verif Require Export UtlModel.
Open Scope Z_scope.

(** ** Printing *)
(** the address of the element of index [idx] *)
Fixpoint address (strides : list Z) (idx : list nat) : Z :=
  match strides, idx with s :: strides', i :: idx' => Z.of_nat i * s + address strides' idx' | _, _ => 0 end.
(** the indices of a view *)
Definition is_index (extents idx : list nat) : Prop := Forall2 (fun e i => (i < e)%nat) extents idx.
(** the view [s] of the buffer [data] is the array [a] *)
Definition holds {T} (data : list T) (s : mdspan) (a : list nat -> T) : Prop :=
  length (md_strides s) = length (md_extents s) /\
  forall idx, is_index (md_extents s) idx -> rd data (md_base s + address (md_strides s) idx) = Ok (a idx).

Fixpoint join (l : list text) : text :=
  match l with [] => [] | [x] => x | x :: l' => (x ++ [","%char] ++ join l')%list end.
(** an array between brackets, its last dimension separated by commas, the others by nothing *)
Fixpoint rendering (extents : list nat) (a : list nat -> text) : text :=
  match extents with
  | [] => a []
  | [e] => ("["%char :: join (map (fun i => a [i]) (seq 0 e)) ++ ["]"%char])%list
  | e :: rest => ("["%char :: flat_map (fun i => rendering rest (fun idx => a (i :: idx))) (seq 0 e) ++ ["]"%char])%list
  end.
(** the last dimension is not empty, or there is another empty dimension *)
Definition printable (extents : list nat) : Prop :=
  extents <> [] /\ (last extents 0%nat <> 0%nat \/ In 0%nat (removelast extents)).
(** the number of elements, and the number of an element in row-major order *)
Definition volume (extents : list nat) : nat := fold_right Nat.mul 1%nat extents.
Fixpoint row_major (extents idx : list nat) : nat :=
  match extents, idx with _ :: es, i :: is => (i * volume es + row_major es is)%nat | _, _ => 0%nat end.
(** the texts of the elements have no brackets and no comma *)
Definition plain (x : text) : Prop := ~ In "["%char x /\ ~ In "]"%char x /\ ~ In ","%char x.

(** ** Configuration *)
(** [x] is the value of the entry [p] of the tree *)
Definition entry_double (t : tree) (p : list key) (x : R) : Prop :=
  exists s, y_node (t_file t) (t_path t ++ p) = Some s /\ y_double (t_file t) s = Some x.
Definition entry_int (t : tree) (p : list key) (x : Z) : Prop :=
  exists s, y_node (t_file t) (t_path t ++ p) = Some s /\ y_int (t_file t) s = Some x.
(** the path of a parameter of the i-th species of the file *)
Definition parameter (i : Z) (name : string) : list key := [Name "SpeciesInfo"; Item i; Name name].
(** the field [l] on the species of [rg] holds the parameter [name] of the entry [item isp] of each species [isp] *)
Definition field_of (t : tree) (rg : sp_range) (item : Z -> Z) (name : string) (l : list R) : Prop :=
  length l = r_size rg /\
  forall k, (k < r_size rg)%nat -> exists x, nth_error l k = Some x /\
    entry_double t (parameter (item (r_front rg + Z.of_nat k)) name) x.
(** a parameter all the species have *)
Definition present (t : tree) (rg : sp_range) (item : Z -> Z) (name : string) : Prop :=
  forall k, (k < r_size rg)%nat -> exists x, entry_double t (parameter (item (r_front rg + Z.of_nat k)) name) x.
Definition present_int (t : tree) (rg : sp_range) (name : string) : Prop :=
  forall k, (k < r_size rg)%nat -> exists x, entry_int t (parameter (r_front rg + Z.of_nat k) name) x.
Definition is_int (z : Z) : Prop := -2147483648 <= z < 2147483648.
(** the entry of a species in the file: its index, or its position in the range *)
Definition same (isp : Z) : Z := isp.
Definition position (rg : sp_range) (isp : Z) : Z := isp - r_front rg.
(** the equilibrium asked for *)
Definition method (t : tree) : option string := y_node (t_file t) (t_path t ++ [Name "Algorithm"; Name "equilibrium"]).

(** ** Spline grids *)
Definition mesh_key (id suffix : string) : list key := [Name "SplineMesh"; Name (id ++ suffix)].
(** the B-splines, then the grid, each once, from the data the template parameters ask for *)
Definition grid_actions (uniform user_points : bool) (t : tree) (arrays : pdi) (id : string) (l : list action) : Prop :=
  exists b p, l = [b; InitGrid p] /\
    (if uniform
     then exists min max ncells, b = InitUniformBSplines min max ncells /\ entry_double t (mesh_key id "_min") min /\
            entry_double t (mesh_key id "_max") max /\ entry_int t (mesh_key id "_ncells") ncells
     else exists bp, b = InitBSplines bp /\ arrays ("read_" ++ id)%string ("breakpoints_" ++ id)%string = Ok bp) /\
    (if user_points
     then exists mesh, p = FromMesh mesh /\ 
            arrays ("read_" ++ id)%string (if uniform then "grid_" ++ id else id)%string = Ok mesh
     else p = FromBSplines).
