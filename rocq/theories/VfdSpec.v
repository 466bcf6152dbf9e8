(** Specification for vector fields. *)
From Coq Require Import String.
From Verif Require Export VfdModel.
Open Scope nat_scope.

(** the point lies in the index range *)
Definition inside (rg : ranges) (p : index) : Prop :=
  forall g f n, In (g, (f, n)) rg -> (f <= p g < f + Z.of_nat n)%Z.
(** two indices designate the same point of the range *)
Definition same_point (rg : ranges) (p q : index) : Prop := forall g r, In (g, r) rg -> p g = q g.
(** the index range of a field *)
Definition range_of (v : view) : ranges := map (fun d => (d_grid d, (d_front d, d_size d))) (v_dims v).
(** a vector field with one component for each of its (distinct) tags, all on the same index range *)
Definition on_range (vf : vfield) (rg : ranges) : Prop :=
  NoDup (vf_tags vf) /\ length (vf_vals vf) = length (vf_tags vf) /\
  NoDup (map fst rg) /\ Forall (fun v => range_of v = rg) (vf_vals vf).
(** no two elements (of the same or of different components) share their memory *)
Definition separate (vf : vfield) (rg : ranges) : Prop :=
  forall i j vi vj p q, nth_error (vf_vals vf) i = Some vi -> nth_error (vf_vals vf) j = Some vj ->
    inside rg p -> inside rg q -> addr vi p = addr vj q -> i = j /\ same_point rg p q.
(** the memory of the field exists *)
Definition writable (m : mem) (vf : vfield) (rg : ranges) : Prop :=
  forall v p, In v (vf_vals vf) -> inside rg p -> m (addr v p) <> Free.
(** addresses of the elements at p / of all the elements *)
Definition uses_at (vf : vfield) (p : index) (a : Z) : Prop := exists v, In v (vf_vals vf) /\ a = addr v p.
Definition uses (vf : vfield) (rg : ranges) (a : Z) : Prop := exists p, inside rg p /\ uses_at vf p a.
Definition unchanged_but (P : Z -> Prop) (m m' : mem) : Prop := forall a, ~ P a -> m' a = m a.
(** the field holds the vector [vec] at p *)
Definition holds (m : mem) (vf : vfield) (p : index) (vec : list R) : Prop :=
  Forall2 (fun v r => m (addr v p) = Val r) (vf_vals vf) vec.
(** the index p with the elements of [spec] *)
Definition overlay (spec : list (grid * Z)) (p : index) : index :=
  fun g => match assoc g spec with Some i => i | None => p g end.
(** vf' shows, at the points of rg', the elements that vf has at the points [tr p]: the same values whatever
    the memory, and the same addresses *)
Definition same_elements (vf vf' : vfield) (rg' : ranges) (tr : index -> index) : Prop :=
  (forall m p, inside rg' p -> at_index m vf' p = at_index m vf (tr p)) /\
  (forall p a, inside rg' p -> (uses_at vf' p a <-> uses_at vf (tr p) a)).
(** points at the same place of two ranges of the same extents *)
Definition corresponding (rg rg' : ranges) (p q : index) : Prop :=
  Forall2 (fun x y => (p (fst x) - fst (snd x) = q (fst y) - fst (snd y))%Z) rg rg'.
Definition same_extents (rg rg' : ranges) : Prop := map (fun x => snd (snd x)) rg = map (fun x => snd (snd x)) rg'.
(** grids of a range left after fixing those of [spec] *)
Definition remaining (rg : ranges) (spec : list (grid * Z)) : ranges :=
  filter (fun x => match assoc (fst x) spec with Some _ => false | None => true end) rg.
(** the sub-range *)
Definition restricted (rg : ranges) (spec : list (grid * (Z * nat))) : ranges :=
  map (fun x => (fst x, match assoc (fst x) spec with Some r => r | None => snd x end)) rg.
Definition sub_range_ok (rg : ranges) (spec : list (grid * (Z * nat))) : Prop :=
  forall g f n f' n', In (g, (f, n)) rg -> assoc g spec = Some (f', n') ->
    (f <= f' /\ f' + Z.of_nat n' <= f + Z.of_nat n)%Z.
Definition fixed_ok (rg : ranges) (spec : list (grid * Z)) : Prop :=
  forall g f n i, In (g, (f, n)) rg -> assoc g spec = Some i -> (f <= i < f + Z.of_nat n)%Z.

(** reading all the arrays of a file: every vector gets the values stored under its name, nothing else
    changes *)
Definition complete (file : pdi_file) (names : list String.string) : Prop :=
  forall s, In s names -> exists d, data_of file s = Some d /\
    sizes_of file (String.append s "_extents"%string) = Some (length d).
Fixpoint alternate (l : list (String.string * nat)) : list arg :=
  match l with [] => [] | (s, v) :: l' => Name s :: Vec v :: alternate l' end.
