(** Multipatch data types (C122) and multipatch spline builders (C123: one dimension; C124: two). *)
From Verif Require Import ConnSpec MpbSpec MpbProofs MpbExamples.
Open Scope nat_scope.

(** * C122 *)
Theorem C122_new : forall V T ps (f : patch -> V), NoDup ps -> distinct_on T ps ->
  exists m, from_args T ps (map (fun p => (T p, f p)) ps) = Some m /\ holds m ps f.
Proof. exact @new_multipatch. Qed.
Example C122_new_ex : NoDup ps12 /\ distinct_on num ps12.
Proof. exact ex_new. Qed.
Print Assumptions C122_new.

Theorem C122_get_iff : forall V T ps (args : list (nat * V)) m p, from_args T ps args = Some m -> In p ps ->
  ((exists v, mp_get p m = Some v) <-> once T ps p).
Proof. exact @get_iff. Qed.
Example C122_get_iff_ex : exists m, from_args (fun _ => 7) ps12 [(7, 1); (7, 2)] = Some m /\ mp_get p1 m = None.
Proof. exact ex_get. Qed.
Print Assumptions C122_get_iff.

Theorem C122_convert : forall V T ps (other : multipatch V) os f, holds other os f -> NoDup ps -> distinct_on T ps ->
  incl ps os -> (forall p, In p ps -> T p = mp_type other p) ->
  exists m, convert T ps other = Some m /\ holds m ps f.
Proof. exact @convert_ok. Qed.
Example C122_convert_ex : holds (mp12 5) ps12 (handle 5) /\ NoDup [p2; p1] /\ distinct_on num [p2; p1] /\
  incl [p2; p1] ps12 /\ forall p, In p [p2; p1] -> num p = mp_type (mp12 5) p.
Proof. exact ex_convert. Qed.
Example C122_convert_ex2 : exists m, convert num [p2; p1] (mp12 5) = Some m /\
  mp_get p1 m = Some 5 /\ mp_get p2 m = Some 6.
Proof. exact ex_reorder. Qed.
Print Assumptions C122_convert.

Theorem C122_convert_only : forall V T ps (other : multipatch V) m, NoDup ps -> distinct_on T ps ->
  convert T ps other = Some m ->
  incl ps (mp_patches other) /\ mp_patches m = ps /\
  forall p, In p ps -> T p = mp_type other p /\ mp_get p m = mp_get p other /\ mp_get p other <> None.
Proof. exact @convert_inv. Qed.
Example C122_convert_only_ex : exists m, convert num [p2; p1] (mp12 5) = Some m /\
  mp_get p1 m = Some 5 /\ mp_get p2 m = Some 6.
Proof. exact ex_reorder. Qed.
Print Assumptions C122_convert_only.

Theorem C122_temporary : forall V T ps (other : multipatch V) f, holds other ps f -> NoDup ps -> distinct_on T ps ->
  (forall p, In p ps -> T p = mp_type other p) ->
  exists m, convert_temporary T ps other = Some m /\ holds m ps f.
Proof. exact @convert_temporary_ok. Qed.
Example C122_temporary_ex : holds (mp12 5) ps12 (handle 5) /\ NoDup ps12 /\ distinct_on num ps12 /\
  forall p, In p ps12 -> num p = mp_type (mp12 5) p.
Proof. exact ex_temporary. Qed.
Print Assumptions C122_temporary.

Theorem C122_temporary_order : forall V T ps (other : multipatch V) m,
  convert_temporary T ps other = Some m -> mp_patches other = ps.
Proof. exact @convert_temporary_order. Qed.
Example C122_temporary_order_ex : convert_temporary num [p2; p1] (mp12 5) = None.
Proof. reflexivity. Qed.
Print Assumptions C122_temporary_order.

Theorem C122_field_from : forall V T ps (other : multipatch V) os f, holds other os f -> NoDup ps ->
  distinct_on T ps -> incl ps os -> exists m, field_from T ps other = Some m /\ holds m ps f.
Proof. exact @field_from_ok. Qed.
Example C122_field_from_ex : holds (mp12 5) ps12 (handle 5) /\ NoDup [p2; p1] /\ distinct_on num [p2; p1] /\
  incl [p2; p1] ps12 /\ forall p, In p [p2; p1] -> num p = mp_type (mp12 5) p.
Proof. exact ex_convert. Qed.
Print Assumptions C122_field_from.

Theorem C122_views : forall V W T' (g : V -> W) (m : multipatch V) ps f, holds m ps f -> NoDup ps ->
  distinct_on T' ps -> exists m', mp_map T' g m = Some m' /\ holds m' ps (fun p => g (f p)).
Proof. exact @mp_map_ok. Qed.
Example C122_views_ex : holds (mp12 5) ps12 (handle 5) /\ NoDup ps12 /\ distinct_on num ps12 /\
  forall p, In p ps12 -> num p = mp_type (mp12 5) p.
Proof. exact ex_temporary. Qed.
Print Assumptions C122_views.

Theorem C122_field_mem : forall A (raw : A) T ps ranges os size (m : list (list A)),
  holds ranges os size -> NoDup ps -> distinct_on T ps -> incl ps os ->
  exists f fm m', new_field_mem raw T ps ranges m = Some (fm, m') /\ holds fm ps f /\
    (forall p, In p ps -> length m <= f p /\ nth_error m' (f p) = Some (repeat raw (size p))) /\
    distinct_on f ps /\ (forall h, h < length m -> nth_error m' h = nth_error m h).
Proof. exact @new_field_mem_ok. Qed.
Example C122_field_mem_ex : exists fm m', new_field_mem 0 num ps12 (mp12 2) [[9]] = Some (fm, m') /\
  m' = [[9]; [0; 0]; [0; 0; 0]] /\ mp_get p1 fm = Some 1 /\ mp_get p2 fm = Some 2.
Proof. exact ex_alloc. Qed.
Print Assumptions C122_field_mem.

Theorem C122_deepcopy : forall A dst src ps f g (m : list (list A)), holds dst ps f -> holds src ps g -> NoDup ps ->
  writes_apart ps f [g] ->
  (forall p, In p ps -> exists d s,
     nth_error m (f p) = Some d /\ nth_error m (g p) = Some s /\ length d = length s) ->
  exists run m', deepcopy dst src = Some run /\ run m = Ok m' /\
    (forall p, In p ps -> nth_error m' (f p) = nth_error m (g p)) /\
    (forall h, (forall p, In p ps -> h <> f p) -> nth_error m' h = nth_error m h).
Proof. exact @deepcopy_ok. Qed.
Example C122_deepcopy_ex : match deepcopy (mp12 0) (mp12 2) with
  | Some run => run [[0]; [0; 0]; [1]; [2; 3]] = Ok [[1]; [2; 3]; [1]; [2; 3]]
  | None => False end.
Proof. exact ex_deepcopy. Qed.
Print Assumptions C122_deepcopy.

Theorem C122_deepcopy_extents : forall A dst src ps f g (m m' : list (list A)) run,
  holds dst ps f -> holds src ps g -> deepcopy dst src = Some run -> run m = Ok m' ->
  forall p, In p ps ->
  exists d s, nth_error m (f p) = Some d /\ nth_error m (g p) = Some s /\ length d = length s.
Proof. exact @deepcopy_extents. Qed.
Example C122_deepcopy_extents_ex : match deepcopy (mp12 0) (mp12 2) with
  | Some run => run [[0]; [0; 0]; [1]; [2]] = AssertFail
  | None => False end.
Proof. exact ex_deepcopy_extents. Qed.
Print Assumptions C122_deepcopy_extents.

(** Finding: get<Patch> selects by the type T<Patch>: with a T which gives the same type to two patches (a number
    per patch, for example) the object can be built but no get<Patch> compiles (multipatch_type.hpp 121-125,
    multipatch_field.hpp 151-155). *)
Theorem C122_same_type_refuted : exists (T : patch -> nat) ps m, NoDup ps /\
  from_args T ps [(7, 1); (7, 2)] = Some m /\ forall p, In p ps -> mp_get p m = None.
Proof. exact same_type. Qed.
Print Assumptions C122_same_type_refuted.

(** Finding: the constructors MultipatchFieldMem(label, args...) and MultipatchFieldMem(args...) never compile: the
    label is passed on to a constructor which takes the fields only (multipatch_field_mem.hpp 81-87,
    multipatch_type.hpp 63-66). *)
Theorem C122_field_mem_args_refuted : forall V T ps string_type (label : V) args, length args = length ps ->
  field_mem_from_args T ps string_type label args = None.
Proof. exact @field_mem_args_none. Qed.
Example C122_field_mem_args_refuted_ex : length [(1, 5); (3, 6)] = length ps12 /\
  exists m, from_args num ps12 [(1, 5); (3, 6)] = Some m.
Proof. split; [reflexivity|]. eexists. reflexivity. Qed.
Print Assumptions C122_field_mem_args_refuted.

(** * C123 *)
Theorem C123_boundary_conditions : forall conn transition d p, geometry conn ->
  (described conn d p -> exists t, builder_type conn transition d p = Some t /\ is_type conn transition d p t) /\
  (~ described conn d p -> builder_type conn transition d p = None).
Proof. exact builder_type_spec. Qed.
Example C123_boundary_conditions_ex : builder_type row HERMITE along_x p1 = Some (BType 11 1 HERMITE HERMITE) /\
  builder_type row GREVILLE along_x p1 = Some (BType 11 1 HERMITE GREVILLE) /\
  builder_type row PERIODIC along_x p2 = Some (BType 13 3 PERIODIC GREVILLE) /\
  builder_type row GREVILLE along_x (Patch 7 8 17 18) = None.
Proof. exact ex_types. Qed.
Print Assumptions C123_boundary_conditions.

Theorem C123_build : forall A B (solve : B -> list A -> list (option (list A)) -> res (list A))
    conn transition d ps (builder : patch -> B) s v splines values dmin dmax omin omax,
  geometry conn -> NoDup ps -> (forall p, In p ps -> described conn d p) -> distinct_on (a_bs d) ps ->
  holds splines ps s -> holds values ps v -> holds_opt omin ps dmin -> holds_opt omax ps dmax ->
  writes_apart ps s (reads v [dmin; dmax]) ->
  exists bs calls, builders1 conn transition d ps (map builder ps) = Some bs /\
    build1 conn transition d ps bs splines values omin omax = Some calls /\
    forall m : list (list A),
      (forall m', run_calls solve calls m = Ok m' -> built solve ps builder s v [dmin; dmax] m m') /\
      ((forall p, In p ps -> nth_error m (s p) <> None /\ exists vals dvals out,
          inputs m p v [dmin; dmax] vals dvals /\ solve (builder p) vals dvals = Ok out) ->
       exists m', run_calls solve calls m = Ok m').
Proof. exact @multipatch_build1. Qed.
Example C123_build_ex : geometry row /\ NoDup ps12 /\ (forall p, In p ps12 -> described row along_x p) /\
  distinct_on (a_bs along_x) ps12 /\ holds (mp12 0) ps12 (handle 0) /\ holds (mp12 2) ps12 (handle 2) /\
  holds_opt (Some (mp12 4)) ps12 (Some (handle 4)) /\ holds_opt None ps12 None /\
  writes_apart ps12 (handle 0) (reads (handle 2) [Some (handle 4); None]).
Proof. exact ex_build1. Qed.
Example C123_build_ex2 : match builders1 row GREVILLE along_x ps12 (map t12 ps12) with
  | Some bs => match build1 row GREVILLE along_x ps12 bs (mp12 0) (mp12 2) (Some (mp12 4)) None with
     | Some calls =>
         run_calls (ddc_build interp0) calls [[]; []; [1; 2]; [2; 3; 4]; [8]; []]
         = Ok [[11; 1; 2; 8]; [13; 2; 3; 4]; [1; 2]; [2; 3; 4]; [8]; []] /\
         run_calls (ddc_build interp0) calls [[]; []; [1; 2]; [2; 3; 4]; [8]; [9]] = AssertFail
     | None => False end
  | None => False end.
Proof. exact ex_run1. Qed.
Print Assumptions C123_build.

(** with DDC's rule: derivatives are required exactly at the ends with the condition HERMITE *)
Theorem C123_derivatives_required : forall A (interp : btype -> list A -> list (option (list A)) -> list A)
    conn transition d ps (t : patch -> btype) s v splines values dmin dmax omin omax,
  geometry conn -> NoDup ps -> (forall p, In p ps -> described conn d p) -> distinct_on (a_bs d) ps ->
  (forall p, In p ps -> is_type conn transition d p (t p)) ->
  holds splines ps s -> holds values ps v -> holds_opt omin ps dmin -> holds_opt omax ps dmax ->
  writes_apart ps s (reads v [dmin; dmax]) ->
  exists bs calls, builders1 conn transition d ps (map t ps) = Some bs /\
    build1 conn transition d ps bs splines values omin omax = Some calls /\
    forall m : list (list A),
      (forall p, In p ps -> nth_error m (s p) <> None /\ exists vals dvals, inputs m p v [dmin; dmax] vals dvals) ->
      ((exists m', run_calls (ddc_build interp) calls m = Ok m') <->
       forall p, In p ps ->
         (b_lo (t p) = HERMITE <-> exists x r, contents m p dmin (Some (x :: r))) /\
         (b_up (t p) = HERMITE <-> exists x r, contents m p dmax (Some (x :: r)))).
Proof. exact @build1_defined. Qed.
Example C123_derivatives_required_ex : (forall p, In p ps12 -> is_type row GREVILLE along_x p (t12 p)) /\
  forall p, In p ps12 -> nth_error [[]; []; [1; 2]; [2; 3; 4]; [8]; []] (handle 0 p) <> None /\
    exists vals dvals, inputs [[]; []; [1; 2]; [2; 3; 4]; [8]; []] p (handle 2) [Some (handle 4); None] vals dvals.
Proof. exact ex_defined. Qed.
Print Assumptions C123_derivatives_required.

(** when the builders interpolate, equal values on both sides of an interface give equal splines there *)
Theorem C123_interface : forall A B (solve : B -> list A -> list (option (list A)) -> res (list A))
    (value : B -> list A -> nat -> A) ps (builder : patch -> B) s v ds (m m' : list (list A)),
  (forall b vals dvals out i x, solve b vals dvals = Ok out -> nth_error vals i = Some x -> value b out i = x) ->
  built solve ps builder s v ds m m' ->
  forall p q i j vp vq cp cq x, In p ps -> In q ps ->
    nth_error m (v p) = Some vp -> nth_error m (v q) = Some vq ->
    nth_error vp i = Some x -> nth_error vq j = Some x ->
    nth_error m' (s p) = Some cp -> nth_error m' (s q) = Some cq ->
    value (builder p) cp i = value (builder q) cq j.
Proof. exact @interface_continuous. Qed.
Example C123_interface_ex :
  (forall b vals dvals out i x,
     (fun (_ : nat) (vals : list nat) (_ : list (option (list nat))) => Ok vals) b vals dvals = Ok out ->
     nth_error vals i = Some x -> nth i out 0 = x) /\
  built (fun (_ : nat) vals _ => Ok vals) ps12 num (handle 0) (handle 2) []
    [[]; []; [1; 2]; [2; 3; 4]] [[1; 2]; [2; 3; 4]; [1; 2]; [2; 3; 4]].
Proof. exact ex_continuous. Qed.
Print Assumptions C123_interface.

(** * C124 *)
Theorem C124_boundary_conditions : forall conn transition d1 d2 p, geometry conn ->
  described conn d1 p -> described conn d2 p ->
  exists t1 t2, builder_type2 conn transition d1 d2 p = Some (t1, t2) /\
    is_type conn transition d1 p t1 /\ is_type conn transition d2 p t2.
Proof. exact builder_type2_spec. Qed.
Example C124_boundary_conditions_ex : builder_type2 row GREVILLE along_x along_y p2
  = Some (BType 13 3 GREVILLE GREVILLE, BType 14 4 PERIODIC PERIODIC).
Proof. exact ex_types2. Qed.
Print Assumptions C124_boundary_conditions.

Theorem C124_build : forall A B (solve : B -> list A -> list (option (list A)) -> res (list A))
    conn transition d1 d2 ps (builder : patch -> B) s v splines values
    (ds : list (option (patch -> nat))) o1 o2 o3 o4 o5 o6 o7 o8,
  geometry conn -> NoDup ps -> (forall p, In p ps -> described conn d1 p /\ described conn d2 p) ->
  distinct_on (a_bs d1) ps -> holds splines ps s -> holds values ps v ->
  Forall2 (fun o d => holds_opt o ps d) [o1; o2; o3; o4; o5; o6; o7; o8] ds ->
  writes_apart ps s (reads v ds) ->
  exists bs calls, builders2 conn transition d1 d2 ps (map builder ps) = Some bs /\
    build2 conn transition d1 d2 ps bs splines values o1 o2 o3 o4 o5 o6 o7 o8 = Some calls /\
    forall m : list (list A),
      (forall m', run_calls solve calls m = Ok m' -> built solve ps builder s v ds m m') /\
      ((forall p, In p ps -> nth_error m (s p) <> None /\ exists vals dvals out,
          inputs m p v ds vals dvals /\ solve (builder p) vals dvals = Ok out) ->
       exists m', run_calls solve calls m = Ok m').
Proof. exact @multipatch_build2. Qed.
Example C124_build_ex : geometry row /\ NoDup ps12 /\
  (forall p, In p ps12 -> described row along_x p /\ described row along_y p) /\
  distinct_on (a_bs along_x) ps12 /\ holds (mp12 0) ps12 (handle 0) /\ holds (mp12 2) ps12 (handle 2) /\
  Forall2 (fun o d => holds_opt o ps12 d)
    [Some (mp12 4); None; None; None; Some (mp12 6); None; None; None] ds12 /\
  writes_apart ps12 (handle 0) (reads (handle 2) ds12).
Proof. exact ex_build2. Qed.
Print Assumptions C124_build.
