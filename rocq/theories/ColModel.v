(** Model of src/collisions/ (collision_common_configuration.hpp, collision_operator.hpp,
    collision_operator.cpp) and src/geometryVparMu/collisions/collision_configuration.hpp.

    Simplifications: values are real numbers, [None] standing for memory never written; the two entries of
    the YAML file are given (nustar0 is [None] when it is NaN or infinite).  Koliop (not in /repo) is an
    oracle: a set of live handles, queued collisions, and a status for each call. *)
From Verif Require Export Lib.
Open Scope nat_scope.

(** ** Index ranges and fields (DDC: ddc_aliases.hpp) *)
Inductive dim := Sp | Phi | Rr | Theta | Vpar | Mu.
Definition dim_eqb (a b : dim) : bool :=
  match a, b with
  | Sp, Sp | Phi, Phi | Rr, Rr | Theta, Theta | Vpar, Vpar | Mu, Mu => true
  | _, _ => false
  end.
(** IdxRange<Grid1D>: front and number of elements *)
Record rng := Rng { r_front : Z; r_size : nat }.
(** IdxRange<Grids...>, in the order of the memory layout (layout right) *)
Notation idx_range := (list (dim * rng)) (only parsing).
(** Idx<Grids...> *)
Notation index := (list (dim * Z)) (only parsing).
Fixpoint find_dim {A} (d : dim) (l : list (dim * A)) : option A :=
  match l with [] => None | (e, a) :: l' => if dim_eqb d e then Some a else find_dim d l' end.
Notation cell := (option R) (only parsing).
(** a (contiguous, layout right) field *)
Record field := Field { f_range : idx_range; f_data : list cell }.
Definition in_rng (r : rng) (i : Z) : bool := (r_front r <=? i)%Z && (i <? r_front r + Z.of_nat (r_size r))%Z.
(** position in memory of the element [ix]; the index may have more dimensions than the field *)
Fixpoint offset (rg : idx_range) (acc : nat) (ix : index) : option nat :=
  match rg with
  | [] => Some acc
  | (d, r) :: rg' =>
      match find_dim d ix with
      | Some i => if in_rng r i then offset rg' (acc * r_size r + Z.to_nat (i - r_front r)) ix else None
      | None => None
      end
  end.
Definition get (f : field) (ix : index) : res cell :=
  match offset (f_range f) 0 ix with Some o => rd (f_data f) (Z.of_nat o) | None => Ub end.
Definition set (f : field) (ix : index) (c : cell) : res field :=
  match offset (f_range f) 0 ix with
  | Some o => let* b := wr (f_data f) (Z.of_nat o) c in Ok (Field (f_range f) b)
  | None => Ub
  end.
Fixpoint size (rg : idx_range) : nat :=
  match rg with [] => 1 | (_, r) :: rg' => r_size r * size rg' end.
(** all the indices of a range, in the order of the memory *)
Fixpoint indices (rg : idx_range) : list index :=
  match rg with
  | [] => [[]]
  | (d, r) :: rg' =>
      flat_map (fun k => map (cons (d, (r_front r + Z.of_nat k)%Z)) (indices rg')) (seq 0 (r_size r))
  end.
(** FieldMem: uninitialised allocation *)
Definition alloc (rg : idx_range) : field := Field rg (repeat None (size rg)).
(** ddc::parallel_for_each over the range of [f], writing f(idx) = g(idx); every index is visited once and
    the iterations are independent, so the order of the memory is as good as any other *)
Fixpoint write_each (l : list index) (g : index -> res cell) (f : field) : res field :=
  match l with
  | [] => Ok f
  | ix :: l' => let* c := g ix in let* f' := set f ix c in write_each l' g f'
  end.
Definition for_each_write (g : index -> res cell) (f : field) : res field :=
  write_each (indices (f_range f)) g f.

(** ** collision_common_configuration.hpp *)
(** transpose_replicate_deep_copy, 232-247 *)
Definition transpose_replicate_deep_copy (destination source : field) : res field :=
  for_each_write (fun ix => get source ix) destination.

(** ddc::parallel_fill *)
Definition fill (f : field) (v : R) : res field := for_each_write (fun _ => Ok (Some v)) f.
(** ddcHelper::dump_coordinates (src/utils/ddc_helper.hpp 148-159); [coord] is ddc::coordinate *)
Definition dump_coordinates (coord : dim -> Z -> R) (d : dim) (f : field) : res field :=
  for_each_write (fun ix => match find_dim d ix with Some i => Ok (Some (coord d i)) | None => Ub end) f.
(** ddc::parallel_deepcopy(dst, src[range of dst]), 185-193: the slice must lie in src *)
Definition deepcopy_slice (dst src : field) : res field := for_each_write (fun ix => get src ix) dst.

(** extract_1d_index_range, 278-286: [None] when the program does not compile (ddc::select of a dimension
    which is not there) *)
Definition extract_1d (spoofed : dim -> bool) (d : dim) (rg : idx_range) : option rng :=
  if spoofed d then Some (Rng 0 1) else find_dim d rg.
(** extract_md_index_range, 296-300 *)
Fixpoint extract_md (spoofed : dim -> bool) (ds : list dim) (rg : idx_range) : option idx_range :=
  match ds with
  | [] => Some []
  | d :: ds' =>
      match extract_1d spoofed d rg, extract_md spoofed ds' rg with
      | Some r, Some l => Some ((d, r) :: l)
      | _, _ => None
      end
  end.

(** the static_asserts of the class, 121-126 *)
Definition class_compiles (uniform : dim -> bool) : bool := uniform Vpar && uniform Vpar.

(** (x > 0) && ((x & (x - 1)) == 0), 168-170 *)
Definition pow2_test (x : nat) : bool :=
  (0 <? x) && N.eqb (N.land (N.of_nat x) (N.of_nat (x - 1))) 0.

(** the members of CollisionConfigurationData, 305-400 *)
Record config_data := {
  m_hat_As : field; m_hat_Zs : field; m_mask_buffer_r : field; m_mask_LIM : field; m_B_norm : field;
  m_Bstar_s : field; m_mug : field; m_vparg : field; m_coeff_AD : field;
  m_coeff_intdmu : field; m_coeff_intdvpar : field; m_interspecies : bool;
  m_mu_extent : nat; m_vpar_extent : nat; m_r_extent : nat; m_theta_extent : nat; m_phi_extent : nat;
  m_sp_extent : nat }.
Record yaml := { y_interspecies : bool; y_nustar0 : option R }.
(** discrete spaces: coordinates of the points, masses and charges of the species of the simulation *)
Record spaces := { coord : dim -> Z -> R; masses : field; charges : field }.

(** The constructor, 138-216.  Result [None]: does not compile. *)
Definition new_config_data (w : spaces) (spoofed : dim -> bool) (y : yaml) (rg : idx_range)
  (coeff_intdmu coeff_intdvpar : field) : option (res config_data) :=
  let ex := fun ds => extract_md spoofed ds rg in
  match ex [Sp], ex [Rr], ex [Theta; Rr], ex [Sp; Theta; Rr; Vpar], ex [Mu], ex [Vpar], ex [Theta], ex [Phi] with
  | Some sp, Some rr, Some tr, Some strv, Some mu, Some vpar, Some th, Some ph =>
      Some (
        if negb (pow2_test (size rr) && pow2_test (size th) && pow2_test (size ph)) then Throw else
        let* hat_As := deepcopy_slice (alloc sp) (masses w) in
        let* hat_Zs := deepcopy_slice (alloc sp) (charges w) in
        let* mask_r := fill (alloc rr) 0 in
        let* mask_lim := fill (alloc tr) 0 in
        let* mug := dump_coordinates (coord w) Mu (alloc mu) in
        let* vparg := dump_coordinates (coord w) Vpar (alloc vpar) in
        Ok {| m_hat_As := hat_As; m_hat_Zs := hat_Zs; m_mask_buffer_r := mask_r; m_mask_LIM := mask_lim;
              m_B_norm := alloc tr; m_Bstar_s := alloc strv; m_mug := mug; m_vparg := vparg;
              m_coeff_AD := alloc rr; m_coeff_intdmu := coeff_intdmu; m_coeff_intdvpar := coeff_intdvpar;
              m_interspecies := y_interspecies y;
              m_mu_extent := size mu; m_vpar_extent := size vpar; m_r_extent := size rr;
              m_theta_extent := size th; m_phi_extent := size ph; m_sp_extent := size sp |})
  | _, _, _, _, _, _, _, _ => None
  end.

(** ** src/geometryVparMu/collisions/collision_configuration.hpp *)
(** the spoofed grids, 31-41 *)
Definition vparmu_spoofed (d : dim) : bool :=
  match d with Theta | Rr | Phi => true | _ => false end.
(** do_configuration_data_initialisation, 127-179 *)
Definition data_initialisation (q : config_data) (input_B_norm : R) (input_Bstar_s : field) : res config_data :=
  let* B_norm := fill (m_B_norm q) input_B_norm in
  let* Bstar_s := transpose_replicate_deep_copy (m_Bstar_s q) input_Bstar_s in
  let* coeff_AD := fill (m_coeff_AD q) (sqrt 2) in
  Ok {| m_hat_As := m_hat_As q; m_hat_Zs := m_hat_Zs q; m_mask_buffer_r := m_mask_buffer_r q;
        m_mask_LIM := m_mask_LIM q; m_B_norm := B_norm; m_Bstar_s := Bstar_s; m_mug := m_mug q;
        m_vparg := m_vparg q; m_coeff_AD := coeff_AD; m_coeff_intdmu := m_coeff_intdmu q;
        m_coeff_intdvpar := m_coeff_intdvpar q; m_interspecies := m_interspecies q;
        m_mu_extent := m_mu_extent q; m_vpar_extent := m_vpar_extent q; m_r_extent := m_r_extent q;
        m_theta_extent := m_theta_extent q; m_phi_extent := m_phi_extent q; m_sp_extent := m_sp_extent q |}.
(** m_nustar0 != 1.0 *)
Definition differs_from_1 (x : option R) : bool :=
  match x with Some r => if Req_EM_T r 1 then false else true | None => true end.
(** the constructor, 90-107; the distribution function lives on (sp, vpar, mu) *)
Definition vparmu_configuration (w : spaces) (y : yaml) (sp vpar mu : rng)
  (coeff_intdmu coeff_intdvpar : field) (B_norm : R) (Bstar_s : field) : res config_data :=
  match new_config_data w vparmu_spoofed y [(Sp, sp); (Vpar, vpar); (Mu, mu)] coeff_intdmu coeff_intdvpar with
  | None => Ub (* does not happen: the three dimensions are there *)
  | Some r =>
      let* q := r in
      if differs_from_1 (y_nustar0 y) then Throw else
      data_initialisation q B_norm Bstar_s
  end.

(** ** collision_operator.cpp *)
(** The arguments of koliop_Create, 42-68, in their order; the pointers are given as the memory they point
    to (koliop is assumed to copy what it needs, or the configuration to outlive the operator). *)
Record koliop_args := {
  k_mu : nat; k_vpar : nat; k_tor1 : nat; k_tor2 : nat; k_tor3 : nat; k_species : nat;
  k_local_tor1 : nat; k_local_tor2 : nat; k_off_r : nat; k_off_theta : nat;
  k_interspecies : bool; k_sol : bool; k_limiter : bool; k_separatrix : Z;
  k_hat_As : list cell; k_hat_Zs : list cell; k_mug : list cell; k_vparg : list cell;
  k_intdmu : list cell; k_intdvpar : list cell; k_AD_r : list cell; k_mask_buffer_r : list cell;
  k_mask_limiter : list cell; k_B_norm : list cell; k_Bstar_s : list cell }.
(** do_operator_initialisation, 19-74: the call *)
Definition init_args (mu vpar tor1 tor2 tor3 species : nat) (interspecies : bool) (separatrix : Z)
  (hat_As hat_Zs mug vparg intdmu intdvpar AD_r mask_buffer_r mask_limiter B_norm Bstar_s : list cell)
  : koliop_args :=
  {| k_mu := mu; k_vpar := vpar; k_tor1 := tor1; k_tor2 := tor2; k_tor3 := tor3; k_species := species;
     k_local_tor1 := tor1; k_local_tor2 := tor2; k_off_r := 0; k_off_theta := 0;
     k_interspecies := interspecies; k_sol := false; k_limiter := true; k_separatrix := separatrix;
     k_hat_As := hat_As; k_hat_Zs := hat_Zs; k_mug := mug; k_vparg := vparg; k_intdmu := intdmu;
     k_intdvpar := intdvpar; k_AD_r := AD_r; k_mask_buffer_r := mask_buffer_r;
     k_mask_limiter := mask_limiter; k_B_norm := B_norm; k_Bstar_s := Bstar_s |}.
(** ** collision_operator.hpp *)
(** the arguments the constructor passes, 102-123 *)
Definition operator_args (q : config_data) : koliop_args :=
  init_args (m_mu_extent q) (m_vpar_extent q) (m_r_extent q) (m_theta_extent q) (m_phi_extent q)
    (m_sp_extent q) (m_interspecies q) (0 + Z.of_nat (m_r_extent q) - 1)
    (f_data (m_hat_As q)) (f_data (m_hat_Zs q)) (f_data (m_mug q)) (f_data (m_vparg q))
    (f_data (m_coeff_intdmu q)) (f_data (m_coeff_intdvpar q)) (f_data (m_coeff_AD q))
    (f_data (m_mask_buffer_r q)) (f_data (m_mask_LIM q)) (f_data (m_B_norm q)) (f_data (m_Bstar_s q)).

(** ** Koliop and the objects of a program *)
(** number of elements koliop reads behind each pointer, and of elements of the distribution function *)
Definition points (a : koliop_args) : nat :=
  k_species a * k_tor3 a * k_tor1 a * k_tor2 a * k_vpar a * k_mu a.
Definition enough (a : koliop_args) : bool :=
  let tr := k_tor2 a * k_tor1 a in
  forallb (fun '(l, n) => (n <=? length l) && forallb (fun c : cell => match c with Some _ => true | None => false end) (firstn n l))
    [(k_hat_As a, k_species a); (k_hat_Zs a, k_species a); (k_mug a, k_mu a); (k_vparg a, k_vpar a);
     (k_intdmu a, k_mu a); (k_intdvpar a, k_vpar a); (k_AD_r a, k_tor1 a); (k_mask_buffer_r a, k_tor1 a);
     (k_mask_limiter a, tr); (k_B_norm a, tr); (k_Bstar_s a, k_species a * tr * k_vpar a)].

(** Programs build, use, copy and destroy CollisionOperator objects (named by numbers) and read
    distribution functions (buffers, named by numbers). *)
Inductive cmd :=
| New (v : nat) (q : config_data)
| Apply (v : nat) (buf : nat) (dt : R)
| CopyObj (v v' : nat)   (* CollisionOperator v' = v *)
| Destroy (v : nat).
Record job := Job { j_handle : nat; j_buf : nat; j_dt : R }.
Record state := State {
  st_objs : list (nat * nat);           (* objects alive and their handle *)
  st_live : list (nat * koliop_args);   (* handles koliop knows *)
  st_next : nat;                        (* next handle *)
  st_released : list nat;               (* handles released so far *)
  st_jobs : list job;                   (* collisions queued and perhaps not finished *)
  st_bufs : list (list R);              (* memory of the distribution functions *)
  st_calls : nat }.                     (* number of calls to koliop so far *)
Fixpoint find_nat {A} (v : nat) (l : list (nat * A)) : option A :=
  match l with [] => None | (u, a) :: l' => if v =? u then Some a else find_nat v l' end.
Fixpoint remove_nat {A} (v : nat) (l : list (nat * A)) : list (nat * A) :=
  match l with [] => [] | (u, a) :: l' => if v =? u then remove_nat v l' else (u, a) :: remove_nat v l' end.

Section Koliop.
(** the collisions koliop computes on the [points] elements, and the status of the n-th call *)
Variable collide : koliop_args -> R -> list R -> list R.
Variable status : nat -> bool.

(** GSLX_ASSERT(false) when the call fails (std::exit) *)
Definition call (s : state) : res state :=
  if status (st_calls s)
  then Ok (State (st_objs s) (st_live s) (st_next s) (st_released s) (st_jobs s) (st_bufs s) (S (st_calls s)))
  else AssertFail.
(** koliop_Create *)
Definition koliop_Create (a : koliop_args) (s : state) : res (nat * state) :=
  if enough a then
    let* s := call s in
    Ok (st_next s, State (st_objs s) ((st_next s, a) :: st_live s) (S (st_next s)) (st_released s)
                         (st_jobs s) (st_bufs s) (st_calls s))
  else Ub.
(** koliop_Release *)
Definition koliop_Release (h : nat) (s : state) : res state :=
  match find_nat h (st_live s) with
  | None => Ub
  | Some _ =>
      let* s := call s in
      Ok (State (st_objs s) (remove_nat h (st_live s)) (st_next s) (h :: st_released s) (st_jobs s)
                (st_bufs s) (st_calls s))
  end.
(** koliop_Collision: queues the work *)
Definition koliop_Collision (h : nat) (dt : R) (buf : nat) (s : state) : res state :=
  match find_nat h (st_live s), nth_error (st_bufs s) buf with
  | Some a, Some f =>
      if points a <=? length f then
        let* s := call s in
        Ok (State (st_objs s) (st_live s) (st_next s) (st_released s) (st_jobs s ++ [Job h buf dt])
                  (st_bufs s) (st_calls s))
      else Ub
  | _, _ => Ub
  end.
(** the effect of a queued collision, when it is executed *)
Definition run_job (live : list (nat * koliop_args)) (bufs : list (list R)) (j : job) : list (list R) :=
  match find_nat (j_handle j) live with
  | Some a =>
      let f := nth (j_buf j) bufs [] in
      replace_nth bufs (j_buf j) (collide a (j_dt j) (firstn (points a) f) ++ skipn (points a) f)
  | None => bufs
  end.
(** koliop_Fence: the queued work of the handle is done *)
Definition koliop_Fence (h : nat) (s : state) : res state :=
  match find_nat h (st_live s) with
  | None => Ub
  | Some _ =>
      let* s := call s in
      Ok (State (st_objs s) (st_live s) (st_next s) (st_released s)
                (filter (fun j => negb (j_handle j =? h)) (st_jobs s))
                (fold_left (run_job (st_live s)) (filter (fun j => j_handle j =? h) (st_jobs s)) (st_bufs s))
                (st_calls s))
  end.

(** CollisionOperator::CollisionOperator, 102-126 *)
Definition new_operator (v : nat) (q : config_data) (s : state) : res state :=
  let* (h, s) := koliop_Create (operator_args q) s in
  Ok (State ((v, h) :: st_objs s) (st_live s) (st_next s) (st_released s) (st_jobs s) (st_bufs s) (st_calls s)).
(** CollisionOperator::operator(), 146-162 *)
Definition apply_operator (h : nat) (buf : nat) (dt : R) (s : state) : res state :=
  let* s := koliop_Collision h dt buf s in koliop_Fence h s.
(** ~CollisionOperator, 131-134, with do_operator_deinitialisation, collision_operator.cpp 76-81 *)
Definition destroy_operator (v h : nat) (s : state) : res state :=
  let* s := koliop_Release h s in
  Ok (State (remove_nat v (st_objs s)) (st_live s) (st_next s) (st_released s) (st_jobs s) (st_bufs s) (st_calls s)).
(** the copy constructor the compiler generates (the class declares a destructor only): memberwise *)
Definition copy_operator (v' h : nat) (s : state) : res state :=
  Ok (State ((v', h) :: st_objs s) (st_live s) (st_next s) (st_released s) (st_jobs s) (st_bufs s) (st_calls s)).

(** One step; using a name which is not an object, or reusing the name of an object, is not a program
    C++ accepts ([None]). *)
Definition step (c : cmd) (s : state) : option (res state) :=
  match c with
  | New v q => match find_nat v (st_objs s) with Some _ => None | None => Some (new_operator v q s) end
  | Apply v buf dt => match find_nat v (st_objs s) with Some h => Some (apply_operator h buf dt s) | None => None end
  | CopyObj v v' =>
      match find_nat v (st_objs s), find_nat v' (st_objs s) with
      | Some h, None => Some (copy_operator v' h s)
      | _, _ => None
      end
  | Destroy v => match find_nat v (st_objs s) with Some h => Some (destroy_operator v h s) | None => None end
  end.
Fixpoint run (l : list cmd) (s : state) : option (res state) :=
  match l with
  | [] => Some (Ok s)
  | c :: l' =>
      match step c s with
      | None => None
      | Some (Ok s') => run l' s'
      | Some r => Some r
      end
  end.
End Koliop.
Definition start (bufs : list (list R)) : state := State [] [] 0 [] [] bufs 0.
