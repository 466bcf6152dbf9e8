(** Specification vocabulary of the multipatch data types and spline builders (C122-C124). *)
From Verif Require Export ConnSpec MpbModel.
Open Scope nat_scope.

(** different patches have different images *)
Definition distinct_on {V} (f : patch -> V) (ps : list patch) : Prop :=
  forall p q, In p ps -> In q ps -> f p = f q -> p = q.

(** the type of patch [p] appears exactly once among the types of the patches *)
Definition once (T : patch -> nat) (ps : list patch) (p : patch) : Prop :=
  forall i j, nth_error (map T ps) i = Some (T p) -> nth_error (map T ps) j = Some (T p) -> i = j.

(** the multipatch object is made of [f p] for each of the patches [ps] *)
Definition holds {V} (m : multipatch V) (ps : list patch) (f : patch -> V) : Prop :=
  mp_patches m = ps /\ forall p, In p ps -> mp_get p m = Some (f p).
Definition holds_opt (o : option (multipatch nat)) (ps : list patch) (f : option (patch -> nat)) : Prop :=
  match o, f with
  | None, None => True
  | Some m, Some f => holds m ps f
  | _, _ => False
  end.

(** no buffer is shared: different patches write to different buffers, which are not read *)
Definition writes_apart (ps : list patch) (s : patch -> nat) (reads : list (patch -> nat)) : Prop :=
  distinct_on s ps /\ forall p q r, In p ps -> In q ps -> In r reads -> s p <> r q.

(** boundary conditions: the given one where the domain ends, the transition one between patches *)
Definition bc_at (conn : list interface) (outside transition : bound) (e : edge) (b : bound) : Prop :=
  (glued conn e None /\ b = outside) \/ (exists e', glued conn e (Some e') /\ b = transition).
Definition is_type (conn : list interface) (transition : bound) (d : along) (p : patch) (t : btype) : Prop :=
  b_bs t = a_bs d p /\ b_grid t = a_grid d p /\
  bc_at conn (a_lower d) transition (Edge p (a_grid d p) FRONT) (b_lo t) /\
  bc_at conn (a_upper d) transition (Edge p (a_grid d p) BACK) (b_up t).
Definition described (conn : list interface) (d : along) (p : patch) : Prop :=
  used_edge conn (Edge p (a_grid d p) FRONT) /\ used_edge conn (Edge p (a_grid d p) BACK).

(** the contents of the derivative field of a patch, if there is one *)
Definition contents {A} (m : mem A) (p : patch) (d : option (patch -> nat)) (c : option (list A)) : Prop :=
  match d, c with
  | None, None => True
  | Some f, Some c => nth_error m (f p) = Some c
  | _, _ => False
  end.

(** what a builder is called on, for a patch *)
Definition inputs {A} (m : mem A) (p : patch) (v : patch -> nat) (ds : list (option (patch -> nat)))
    (vals : list A) (dvals : list (option (list A))) : Prop :=
  nth_error m (v p) = Some vals /\ Forall2 (contents m p) ds dvals.

(** on every patch, the coefficients are what the builder of that patch makes of the values (and
    derivatives) which that patch had before; nothing else changes *)
Record built {A B} (solve : B -> list A -> list (option (list A)) -> res (list A)) (ps : list patch)
    (builder : patch -> B) (s v : patch -> nat) (ds : list (option (patch -> nat))) (m m' : mem A) : Prop := {
  built_each : forall p, In p ps -> exists vals dvals out,
    inputs m p v ds vals dvals /\ solve (builder p) vals dvals = Ok out /\ nth_error m' (s p) = Some out;
  built_rest : forall h, (forall p, In p ps -> h <> s p) -> nth_error m' h = nth_error m h
}.

Definition reads (v : patch -> nat) (ds : list (option (patch -> nat))) : list (patch -> nat) :=
  v :: flat_map (fun d => match d with Some f => [f] | None => [] end) ds.
