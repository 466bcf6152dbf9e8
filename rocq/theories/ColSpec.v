(** Specification for the collision configuration and operator: what a position in a layout-right array
    is, what koliop must be given, and what a program using collision operators means. *)
From Coq Require Import Permutation.
From Verif Require Export ColModel.
Open Scope nat_scope.

(** a point of the phase space: its index in each dimension *)
Definition point := dim -> Z.
Definition inside (rg : idx_range) (p : point) : Prop :=
  forall d r, In (d, r) rg -> (r_front r <= p d < r_front r + Z.of_nat (r_size r))%Z.
Definition volume (rg : idx_range) : nat := fold_right (fun x n => r_size (snd x) * n) 1 rg.
(** layout right: the last dimension is contiguous *)
Fixpoint position (rg : idx_range) (p : point) : nat :=
  match rg with
  | [] => 0
  | (d, r) :: rg' => Z.to_nat (p d - r_front r) * volume rg' + position rg' p
  end.
Definition dims (rg : idx_range) : list dim := map fst rg.
(** a field of distinct dimensions whose memory has the size of its index range *)
Definition well_formed (f : field) : Prop :=
  NoDup (dims (f_range f)) /\ length (f_data f) = volume (f_range f).
(** the content of the field at a point *)
Definition at_point (f : field) (p : point) : option cell := nth_error (f_data f) (position (f_range f) p).
(** every point of the range [a] is a point of the range [b] *)
Definition within (a b : idx_range) : Prop := forall p, inside a p -> inside b p.

Definition power_of_two (x : nat) : Prop := exists k, x = 2 ^ k.

(** a one-dimensional array over a range, given by its value at each index *)
Definition array_of (r : rng) (v : Z -> option cell) (l : list cell) : Prop :=
  length l = r_size r /\
  forall i, i < r_size r -> nth_error l i = v (r_front r + Z.of_nat i)%Z.
(** the point with the given species and parallel velocity (other dimensions: 0) *)
Definition sp_vpar (s v : Z) : point := fun d => match d with Sp => s | Vpar => v | _ => 0%Z end.
Definition on_sp (s : Z) : point := sp_vpar s 0.

(** What koliop must receive for a (species, vpar, mu) simulation: r, theta and phi have one point, no
    offsets, no scrape-off layer, zero masks, the masses, charges and coordinates of the grids, the
    constant |B| and coefficient, and B*_s laid out as [species][theta][r][vpar]. *)
Definition documented (w : spaces) (interspecies : bool) (sp vpar mu : rng) (intdmu intdvpar : field)
  (B : R) (Bstar : field) (a : koliop_args) : Prop :=
  (k_mu a = r_size mu /\ k_vpar a = r_size vpar /\ k_species a = r_size sp) /\
  (k_tor1 a = 1 /\ k_tor2 a = 1 /\ k_tor3 a = 1 /\ k_local_tor1 a = 1 /\ k_local_tor2 a = 1) /\
  (k_off_r a = 0 /\ k_off_theta a = 0 /\ k_separatrix a = 0%Z) /\
  (k_interspecies a = interspecies /\ k_sol a = false /\ k_limiter a = true) /\
  array_of sp (fun s => at_point (masses w) (on_sp s)) (k_hat_As a) /\
  array_of sp (fun s => at_point (charges w) (on_sp s)) (k_hat_Zs a) /\
  array_of mu (fun i => Some (Some (coord w Mu i))) (k_mug a) /\
  array_of vpar (fun i => Some (Some (coord w Vpar i))) (k_vparg a) /\
  k_intdmu a = f_data intdmu /\ k_intdvpar a = f_data intdvpar /\
  k_AD_r a = [Some (sqrt 2)] /\ k_mask_buffer_r a = [Some 0%R] /\ k_mask_limiter a = [Some 0%R] /\
  k_B_norm a = [Some B] /\
  length (k_Bstar_s a) = r_size sp * r_size vpar /\
  forall s v, s < r_size sp -> v < r_size vpar ->
    nth_error (k_Bstar_s a) (s * r_size vpar + v) =
    at_point Bstar (sp_vpar (r_front sp + Z.of_nat s) (r_front vpar + Z.of_nat v)).

(** ** Programs *)
Definition env := nat -> option config_data.
Definition bind_obj (e : env) (v : nat) (o : option config_data) : env := fun u => if u =? v then o else e u.
(** the distribution function after a collision of duration dt *)
Definition collided (collide : koliop_args -> R -> list R -> list R) (q : config_data) (dt : R) (f : list R) :=
  collide (operator_args q) dt (firstn (points (operator_args q)) f) ++ skipn (points (operator_args q)) f.
(** Programs without copies of operators which build each operator from valid arrays and apply it to
    distribution functions which are large enough: the objects alive and the distribution functions. *)
Inductive means (collide : koliop_args -> R -> list R -> list R) :
  list cmd -> env -> list (list R) -> env -> list (list R) -> Prop :=
| M_nil : forall e b, means collide [] e b e b
| M_new : forall v q l e b e' b', e v = None -> enough (operator_args q) = true ->
    means collide l (bind_obj e v (Some q)) b e' b' -> means collide (New v q :: l) e b e' b'
| M_apply : forall v i dt q f l e b e' b', e v = Some q -> nth_error b i = Some f ->
    points (operator_args q) <= length f ->
    means collide l e (replace_nth b i (collided collide q dt f)) e' b' ->
    means collide (Apply v i dt :: l) e b e' b'
| M_destroy : forall v q l e b e' b', e v = Some q -> means collide l (bind_obj e v None) b e' b' ->
    means collide (Destroy v :: l) e b e' b'.

(** bookkeeping of handles in a state: every handle koliop has given is either live or was released
    exactly once, each living object owns one live handle of its own, created from its configuration, and
    no work is left unfinished *)
Definition tidy (e : env) (s : state) : Prop :=
  Permutation (st_released s ++ map fst (st_live s)) (seq 0 (st_next s)) /\
  Permutation (map snd (st_objs s)) (map fst (st_live s)) /\
  NoDup (map fst (st_objs s)) /\
  (forall v q, e v = Some q ->
     exists h, In (v, h) (st_objs s) /\ In (h, operator_args q) (st_live s)) /\
  (forall v, e v = None -> ~ In v (map fst (st_objs s))) /\
  st_jobs s = [].

(** the index range of a dimension for a configuration: one point for the dimensions the simulation does
    not have *)
Definition has_range (spoofed : dim -> bool) (rg : idx_range) (d : dim) (r : rng) : Prop :=
  if spoofed d then r = Rng 0 1 else In (d, r) rg.
(** a field over species which knows the species of [sp] *)
Definition species_field (f : field) (sp : rng) : Prop :=
  well_formed f /\ exists all, f_range f = [(Sp, all)] /\ within [(Sp, sp)] [(Sp, all)].

(** number of calls to koliop a program makes *)
Definition koliop_calls (l : list cmd) : nat :=
  fold_right (fun c n => match c with New _ _ | Destroy _ => 1 | Apply _ _ _ => 2 | CopyObj _ _ => 0 end + n) 0 l.
