(** Model of src/multipatch/data_types/multipatch_type.hpp, multipatch_field.hpp,
    multipatch_field_mem.hpp and of src/multipatch/spline/multipatch_spline_builder.hpp and
    multipatch_spline_builder_2d.hpp.

    Simplifications: a C++ type is a number, and an ill-formed program is [None]; a field is the number of
    the buffer it designates, a memory is the list of the contents of the buffers (the layout inside a
    buffer, with its batch dimensions, is not modelled); what DDC's spline builders compute is the
    parameter [solve]. *)
From Verif Require Export Lib ConnModel.
Open Scope nat_scope.

(** ** std::tuple, indexed by types *)
Notation ty := nat (only parsing).
Definition tuple (T V : Type) := list (T * V).
(** std::get<t>(tuple): ill-formed unless the type [t] occurs exactly once *)
Definition std_get {T V} (dec : forall a b : T, {a = b} + {a <> b}) (t : T) (tp : tuple T V) : option V :=
  match filter (fun x => if dec t (fst x) then true else false) tp with
  | [x] => Some (snd x)
  | _ => None
  end.
(** std::make_tuple(e<Patches>...): well-formed if every element is *)
Fixpoint all_some {A} (l : list (option A)) : option (list A) :=
  match l with
  | [] => Some []
  | o :: r => match o, all_some r with Some a, Some t => Some (a :: t) | _, _ => None end
  end.

(** ** multipatch_type.hpp *)
(** multipatch_type.hpp 30-45: MultipatchType<T, Patches...> and m_tuple *)
Record multipatch (V : Type) := MP
  { mp_type : patch -> ty; mp_patches : list patch; mp_tuple : tuple ty V }.
Arguments MP {V}. Arguments mp_type {V}. Arguments mp_patches {V}. Arguments mp_tuple {V}.

(** multipatch_type.hpp 63-66: MultipatchType(T<Patches>... args), given the types of the arguments *)
Definition from_args {V} (T : patch -> ty) (ps : list patch) (args : tuple ty V) : option (multipatch V) :=
  if list_eq_dec Nat.eq_dec (map fst args) (map T ps) then Some (MP T ps args) else None.

(** multipatch_type.hpp 121-125, multipatch_field.hpp 151-155, multipatch_field_mem.hpp 140-156: get<Patch>
    (get_field and get_const_field of a field designate the same buffer) *)
Definition mp_get {V} (p : patch) (m : multipatch V) : option V := std_get Nat.eq_dec (mp_type m p) (mp_tuple m).

(** a tuple of one element for each of the patches *)
Definition per_patch {V} (T : patch -> ty) (ps : list patch) (e : patch -> option V) : option (multipatch V) :=
  match all_some (map e ps) with
  | Some vs => from_args T ps (combine (map T ps) vs)
  | None => None
  end.

(** multipatch_type.hpp 82-92: the converting constructor, with its static_asserts *)
Definition convert {V} (T : patch -> ty) (ps : list patch) (other : multipatch V) : option (multipatch V) :=
  if forallb (fun p => if in_dec patch_eq_dec p (mp_patches other) then true else false) ps
  then if list_eq_dec Nat.eq_dec (map T ps) (map (mp_type other) ps)
       then per_patch T ps (fun p => mp_get p other)
       else None
  else None.

(** multipatch_type.hpp 100-111, multipatch_field.hpp 130-141: from a temporary, same order only *)
Definition convert_temporary {V} (T : patch -> ty) (ps : list patch) (other : multipatch V)
  : option (multipatch V) :=
  if list_eq_dec patch_eq_dec ps (mp_patches other)
  then if list_eq_dec Nat.eq_dec (map T ps) (map (mp_type other) (mp_patches other))
       then per_patch T ps (fun p => mp_get p other)
       else None
  else None.

(** multipatch_field.hpp 101-122: MultipatchField(MultipatchObj& other), T<Patches> may be another view of
    the same data *)
Definition field_from {V} (T : patch -> ty) (ps : list patch) (other : multipatch V) : option (multipatch V) :=
  per_patch T ps (fun p => mp_get p other).

(** multipatch_field.hpp 162-199, multipatch_field_mem.hpp 163-200: idx_range, get_field, get_const_field *)
Definition mp_map {V W} (T' : patch -> ty) (f : V -> W) (m : multipatch V) : option (multipatch W) :=
  per_patch T' (mp_patches m) (fun p => option_map f (std_get Nat.eq_dec (mp_type m p) (mp_tuple m))).

(** multipatch_field_mem.hpp 81-84, 87: MultipatchFieldMem(label, args...) passes the label on to
    MultipatchType's constructor *)
Definition field_mem_from_args {V} (T : patch -> ty) (ps : list patch) (string_type : ty) (label : V)
    (args : tuple ty V) : option (multipatch V) :=
  from_args T ps ((string_type, label) :: args).

(** ** Memory *)
Definition mem (A : Type) := list (list A).

(** multipatch_field_mem.hpp 100-111: one allocation per patch, on the index range of that patch
    ([raw] is whatever the new memory holds) *)
Fixpoint alloc_each {A} (raw : A) (sizes : list nat) (m : mem A) : list nat * mem A :=
  match sizes with
  | [] => ([], m)
  | n :: r => let '(hs, m') := alloc_each raw r (m ++ [repeat raw n]) in (length m :: hs, m')
  end.
Definition new_field_mem {A} (raw : A) (T : patch -> ty) (ps : list patch) (ranges : multipatch nat)
    (m : mem A) : option (multipatch nat * mem A) :=
  match all_some (map (fun p => mp_get p ranges) ps) with
  | Some sizes =>
      let '(hs, m') := alloc_each raw sizes m in
      option_map (fun f => (f, m')) (from_args T ps (combine (map T ps) hs))
  | None => None
  end.

(** reading a buffer, writing a buffer *)
Definition load {A} (m : mem A) (h : nat) : res (list A) :=
  match nth_error m h with Some c => Ok c | None => Ub end.
Definition store {A} (m : mem A) (h : nat) (c : list A) : res (mem A) :=
  match nth_error m h with Some _ => Ok (replace_nth m h c) | None => Ub end.

(** ddc::parallel_deepcopy on fields: asserts equal extents *)
Definition copy {A} (dst src : nat) (m : mem A) : res (mem A) :=
  let* s := load m src in
  let* d := load m dst in
  if length d =? length s then store m dst s else AssertFail.
Fixpoint copy_each {A} (hs : list (nat * nat)) (m : mem A) : res (mem A) :=
  match hs with
  | [] => Ok m
  | (d, s) :: r => let* m' := copy d s m in copy_each r m'
  end.
(** multipatch_field.hpp 229-237: ddcHelper::deepcopy, both with the patches in the same order; [None] is
    an ill-formed call *)
Definition deepcopy {A} (dst src : multipatch nat) : option (mem A -> res (mem A)) :=
  if list_eq_dec patch_eq_dec (mp_patches dst) (mp_patches src) then
    match all_some (map (fun p => mp_get p dst) (mp_patches dst)),
          all_some (map (fun p => mp_get p src) (mp_patches dst)) with
    | Some ds, Some ss => Some (copy_each (combine ds ss))
    | _, _ => None
    end
  else None.

(** ** multipatch_spline_builder.hpp *)
(** ddc::BoundCond *)
Inductive bound := PERIODIC | HERMITE | GREVILLE.
Definition bound_eq_dec : forall a b : bound, {a = b} + {a <> b}.
Proof. decide equality. Defined.

(** ddc::SplineBuilder<.., BSplines, Grid, Bc, Bc, ..> along each of the dimensions *)
Record btype := BType { b_bs : nat; b_grid : nat; b_lo : bound; b_up : bound }.
Definition btype_eq_dec : forall a b : btype, {a = b} + {a <> b}.
Proof. decide equality; try apply bound_eq_dec; apply Nat.eq_dec. Defined.

(** multipatch_spline_builder.hpp 78-83, 90-91 (2d: 115-126, 134-137): the boundary condition at an edge *)
Definition edge_bc (conn : list interface) (outside transition : bound) (e : edge) : option bound :=
  match equivalent_edge e conn with
  | None => None
  | Some None => Some outside
  | Some (Some _) => Some transition
  end.

(** the template parameters along one dimension (multipatch_spline_builder.hpp 40-54) *)
Record along := Along { a_bs : patch -> nat; a_grid : patch -> grid; a_lower : bound; a_upper : bound }.

(** multipatch_spline_builder.hpp 75-97: Build_BuilderType, one dimension *)
Definition builder_type (conn : list interface) (transition : bound) (d : along) (p : patch) : option btype :=
  match edge_bc conn (a_lower d) transition (Edge p (a_grid d p) FRONT),
        edge_bc conn (a_upper d) transition (Edge p (a_grid d p) BACK) with
  | Some lo, Some up => Some (BType (a_bs d p) (a_grid d p) lo up)
  | _, _ => None
  end.

(** multipatch_spline_builder.hpp 150-151: the builders, in the order of the patches, by type *)
Definition builders1 {B} (conn : list interface) (transition : bound) (d : along) (ps : list patch)
    (bs : list B) : option (tuple btype B) :=
  match all_some (map (builder_type conn transition d) ps) with
  | Some ts => if length bs =? length ps then Some (combine ts bs) else None
  | None => None
  end.

(** one call of a builder: the builder, the coefficients, the values, the derivatives *)
Record call (B : Type) := Call
  { c_builder : B; c_splines : nat; c_values : nat; c_derivs : list (option nat) }.
Arguments Call {B}. Arguments c_builder {B}. Arguments c_splines {B}. Arguments c_values {B}.
Arguments c_derivs {B}.

(** multipatch_spline_builder.hpp 129-138 (2d: 193-202): get_deriv_value<Patch> *)
Definition get_deriv_value (p : patch) (derivs : option (multipatch nat)) : option (option nat) :=
  match derivs with
  | Some d => option_map Some (mp_get p d)
  | None => Some None
  end.

Definition one_call {B} (p : patch) (b : option B) (splines values : multipatch nat)
    (derivs : list (option (multipatch nat))) : option (call B) :=
  match b, mp_get p splines, mp_get p values, all_some (map (get_deriv_value p) derivs) with
  | Some b, Some s, Some v, Some ds => Some (Call b s v ds)
  | _, _, _, _ => None
  end.

(** multipatch_spline_builder.hpp 164-176: operator(), the calls made, in order *)
Definition build1 {B} (conn : list interface) (transition : bound) (d : along) (ps : list patch)
    (bs : tuple btype B) (splines values : multipatch nat)
    (derivs_xmin derivs_xmax : option (multipatch nat)) : option (list (call B)) :=
  all_some (map (fun p =>
    one_call p
      match builder_type conn transition d p with Some t => std_get btype_eq_dec t bs | None => None end
      splines values [derivs_xmin; derivs_xmax]) ps).

(** what the calls do, one after the other *)
Definition load_opt {A} (m : mem A) (h : option nat) : res (option (list A)) :=
  match h with Some h => let* c := load m h in Ok (Some c) | None => Ok None end.
Fixpoint load_opts {A} (m : mem A) (hs : list (option nat)) : res (list (option (list A))) :=
  match hs with
  | [] => Ok []
  | h :: r => let* c := load_opt m h in let* cs := load_opts m r in Ok (c :: cs)
  end.
Definition run_call {A B} (solve : B -> list A -> list (option (list A)) -> res (list A)) (c : call B)
    (m : mem A) : res (mem A) :=
  let* vals := load m (c_values c) in
  let* ds := load_opts m (c_derivs c) in
  let* out := solve (c_builder c) vals ds in
  store m (c_splines c) out.
Fixpoint run_calls {A B} (solve : B -> list A -> list (option (list A)) -> res (list A))
    (cs : list (call B)) (m : mem A) : res (mem A) :=
  match cs with
  | [] => Ok m
  | c :: r => let* m' := run_call solve c m in run_calls solve r m'
  end.

(** ddc::SplineBuilder::operator() (DDC): asserts that derivatives are given exactly where the condition is
    HERMITE (no derivatives: no field, or an empty one); [interp] is the solution of the system *)
Definition is_hermite (b : bound) : bool := match b with HERMITE => true | _ => false end.
Definition given {A} (d : option (list A)) : bool := match d with Some (_ :: _) => true | _ => false end.
Definition ddc_build {A} (interp : btype -> list A -> list (option (list A)) -> list A)
    (b : btype) (vals : list A) (ds : list (option (list A))) : res (list A) :=
  match ds with
  | [dmin; dmax] =>
      if Bool.eqb (is_hermite (b_lo b)) (given dmin) && Bool.eqb (is_hermite (b_up b)) (given dmax)
      then Ok (interp b vals ds) else AssertFail
  | _ => Ub
  end.

(** ** multipatch_spline_builder_2d.hpp *)
(** multipatch_spline_builder_2d.hpp 112-143: ddc::SplineBuilder2D<..> is given by its two dimensions *)
Definition btype2_eq_dec : forall a b : btype * btype, {a = b} + {a <> b}.
Proof. decide equality; apply btype_eq_dec. Defined.
Definition builder_type2 (conn : list interface) (transition : bound) (d1 d2 : along) (p : patch)
  : option (btype * btype) :=
  match edge_bc conn (a_lower d1) transition (Edge p (a_grid d1 p) FRONT),
        edge_bc conn (a_upper d1) transition (Edge p (a_grid d1 p) BACK),
        edge_bc conn (a_lower d2) transition (Edge p (a_grid d2 p) FRONT),
        edge_bc conn (a_upper d2) transition (Edge p (a_grid d2 p) BACK) with
  | Some lo1, Some up1, Some lo2, Some up2 =>
      Some (BType (a_bs d1 p) (a_grid d1 p) lo1 up1, BType (a_bs d2 p) (a_grid d2 p) lo2 up2)
  | _, _, _, _ => None
  end.

(** multipatch_spline_builder_2d.hpp 214-215 *)
Definition builders2 {B} (conn : list interface) (transition : bound) (d1 d2 : along) (ps : list patch)
    (bs : list B) : option (tuple (btype * btype) B) :=
  match all_some (map (builder_type2 conn transition d1 d2) ps) with
  | Some ts => if length bs =? length ps then Some (combine ts bs) else None
  | None => None
  end.

(** multipatch_spline_builder_2d.hpp 247-271: operator(); DDC's builder takes derivs_min1, derivs_max1,
    derivs_min2, derivs_max2 and the mixed derivatives min1_min2, max1_min2, min1_max2, max1_max2 *)
Definition build2 {B} (conn : list interface) (transition : bound) (d1 d2 : along) (ps : list patch)
    (bs : tuple (btype * btype) B) (splines values : multipatch nat)
    (derivs_min1 derivs_max1 derivs_min2 derivs_max2
     mixed_min1_min2 mixed_max1_min2 mixed_min1_max2 mixed_max1_max2 : option (multipatch nat))
  : option (list (call B)) :=
  all_some (map (fun p =>
    one_call p
      match builder_type2 conn transition d1 d2 p with
      | Some t => std_get btype2_eq_dec t bs | None => None end
      splines values
      [derivs_min1; derivs_max1; derivs_min2; derivs_max2;
       mixed_min1_min2; mixed_max1_min2; mixed_min1_max2; mixed_max1_max2]) ps).
