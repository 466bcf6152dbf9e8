(** Properties C105-C107: meshes and arguments of the simulations. *)
From Coq Require Import String.
From Verif Require Import Lib OnionModel MshModel MshSpec MshMesh MshScan MshCli MshMain.
Open Scope R_scope.

(** C105: uniform break points go from min to max, are increasing and equally spaced. *)
Theorem C105_uniform : forall mn mx n, (1 <= n)%nat -> mn < mx ->
  exists l, build_uniform_break_points mn mx n = Ok l /\ subdivision mn mx n l /\
    forall i, (i <= n)%nat -> nth i l 0 = mn + INR i * ((mx - mn) / INR n).
Proof. exact uniform_points. Qed.
Print Assumptions C105_uniform.

(** Random break points are a subdivision whatever rand() returns when the non-uniformity is below 1, and each one is
    within non_uniformity / 2 cells of its uniform position. *)
Theorem C105_random_partial : forall RAND_MAX rand mn mx n nu,
  (1 <= n)%nat -> mn < mx -> (0 < RAND_MAX)%Z -> (forall i, (0 <= rand i <= RAND_MAX)%Z) -> 0 <= nu < 1 ->
  exists l, build_random_break_points RAND_MAX rand mn mx n nu = Ok l /\ subdivision mn mx n l /\
    forall i, (i <= n)%nat ->
      Rabs (nth i l 0 - (mn + INR i * ((mx - mn) / INR n))) <= nu / 2 * ((mx - mn) / INR n).
Proof. exact random_strict. Qed.
Print Assumptions C105_random_partial.

(** With the default non-uniformity, 1, the order is only weak ... *)
Theorem C105_random_default_partial : forall RAND_MAX rand mn mx n,
  (1 <= n)%nat -> mn < mx -> (0 < RAND_MAX)%Z -> (forall i, (0 <= rand i <= RAND_MAX)%Z) ->
  exists l, build_random_break_points RAND_MAX rand mn mx n 1 = Ok l /\ weak_subdivision mn mx n l.
Proof. exact random_weak. Qed.
Print Assumptions C105_random_default_partial.

(** Finding: with the default non_uniformity = 1 of build_random_non_uniform_break_points two consecutive break points
    may coincide (rand() = RAND_MAX then 0): the mesh has an empty cell. *)
Theorem C105_random_default_refuted : exists (rand : nat -> Z) (l : list R),
  (forall i, (0 <= rand i <= 2147483647)%Z) /\
  build_random_break_points 2147483647 rand 0 3 3 1 = Ok l /\ nth 1 l 0 = nth 2 l 0 /\ ~ subdivision 0 3 3 l.
Proof. exact random_default_coincide. Qed.
Print Assumptions C105_random_default_refuted.

(** Finding: a non_uniformity above 1 is accepted and may give decreasing break points. *)
Theorem C105_random_beyond_refuted : forall nu, 1 < nu -> exists (rand : nat -> Z) (l : list R),
  (forall i, (0 <= rand i <= 2147483647)%Z) /\
  build_random_break_points 2147483647 rand 0 3 3 nu = Ok l /\ nth 2 l 0 < nth 1 l 0.
Proof. exact random_beyond. Qed.
Print Assumptions C105_random_beyond_refuted.

Example C105_case : exists l, build_uniform_break_points (-1) 2 6 = Ok l /\ nth 4 l 0 = 1.
Proof.
  destruct (uniform_points (-1) 2 6) as (l & E & _ & H); [lia|lra|]. exists l. split; [exact E|].
  rewrite H by lia. cbn [INR]. lra.
Qed.

(** C106: when no inner cell is empty, the supplied points become the grid (with periodic splines followed by the image
    of the first one) if and only if no cell holds more than degree + 1 of them; otherwise the call throws. *)
Theorem C106_sampling_partial : forall bs n b d n1 n2 xs TOL,
  spline_space bs n b d -> valid_points bs xs ->
  Z.of_nat (length xs) = (bs_nbasis bs - n1 - n2)%Z ->
  (forall j, (2 <= j <= n - 1)%nat -> exists x, In x xs /\ b (j - 1)%nat <= x < b j) ->
  ((forall j, (1 <= j <= n)%nat -> (points_in_cell b j (grid_points bs xs) <= d + 1)%nat) ->
   get_sampling false bs n1 n2 xs TOL = (grid_points bs xs, Ok (NonUniform (grid_points bs xs)))) /\
  ((exists j, (1 <= j <= n)%nat /\ (d + 1 < points_in_cell b j (grid_points bs xs))%nat) ->
   forall u, get_sampling u bs n1 n2 xs TOL = (grid_points bs xs, Throw)).
Proof. exact nonuniform_sampling. Qed.
Print Assumptions C106_sampling_partial.

(** Whatever the points: the call has no undefined behaviour, and it throws only if a cell is overconstrained. *)
Theorem C106_sound : forall bs n b d n1 n2 xs TOL,
  spline_space bs n b d -> valid_points bs xs ->
  Z.of_nat (length xs) = (bs_nbasis bs - n1 - n2)%Z ->
  get_sampling false bs n1 n2 xs TOL = (grid_points bs xs, Ok (NonUniform (grid_points bs xs))) \/
  (get_sampling false bs n1 n2 xs TOL = (grid_points bs xs, Throw) /\
   exists j, (1 <= j <= n)%nat /\ (d + 1 < points_in_cell b j (grid_points bs xs))%nat).
Proof. exact nonuniform_sound. Qed.
Print Assumptions C106_sound.

(** The points of get_domain() are the supplied points. *)
Theorem C106_coordinates : forall bs xs n1 n2,
  Z.of_nat (length xs) = (bs_nbasis bs - n1 - n2)%Z ->
  get_domain bs n1 n2 = Z.of_nat (length xs) /\
  forall i, (i < length xs)%nat -> coordinate (NonUniform (grid_points bs xs)) i = Ok (nth i xs 0).
Proof. intros bs xs n1 n2 L. split; [symmetry; exact L|exact (grid_coordinate bs xs)]. Qed.
Print Assumptions C106_coordinates.

(** A wrong number of points is refused. *)
Theorem C106_wrong_number : forall u bs n1 n2 xs TOL,
  Z.of_nat (length xs) <> (bs_nbasis bs - n1 - n2)%Z -> get_sampling u bs n1 n2 xs TOL = (xs, Throw).
Proof. exact wrong_length. Qed.
Print Assumptions C106_wrong_number.

(** The break points are always accepted, for splines of degree at least 1. *)
Theorem C106_break_points : forall bs n b d n1 n2 TOL,
  spline_space bs n b d -> (1 <= d)%nat ->
  let xs := map b (seq 0 (if bs_periodic bs then n else n + 1)) in
  Z.of_nat (length xs) = (bs_nbasis bs - n1 - n2)%Z ->
  get_sampling false bs n1 n2 xs TOL = (map b (seq 0 (n + 1)), Ok (NonUniform (map b (seq 0 (n + 1))))).
Proof. exact accepts_break_points. Qed.
Print Assumptions C106_break_points.

(** Uniform grids: the result starts at the first point, its step is the length of the domain divided by the number of
    cells of the grid, and every supplied point is within TOL of it; anything else throws. *)
Theorem C106_uniform : forall bs n b d n1 n2 xs TOL,
  spline_space bs n b d -> valid_points bs xs ->
  Z.of_nat (length xs) = (bs_nbasis bs - n1 - n2)%Z -> (2 <= length (grid_points bs xs))%nat ->
  let step := (bs_rmax bs - bs_rmin bs) / INR (length (grid_points bs xs) - 1) in
  forall s,
  snd (get_sampling true bs n1 n2 xs TOL) = Ok s <->
  s = Uniform (nth 0 xs 0) step /\ check_cells bs (grid_points bs xs) = Ok tt /\
  forall i, (i < length xs)%nat -> Rabs (nth 0 xs 0 + INR i * step - nth i xs 0) < TOL.
Proof. exact get_uniform. Qed.
Print Assumptions C106_uniform.

(** Finding: the index of the current cell advances by one cell per point, so it lags behind after an empty cell and an
    overconstrained cell is accepted: here four of the five points are in the last cell of a space of degree 1. *)
Theorem C106_crowded_refuted :
  let bs := integer_splines 4 1 false 5 in
  let xs := [1/2; 32/10; 34/10; 36/10; 38/10] in
  spline_space bs 4 INR 1 /\ valid_points bs xs /\
  points_in_cell INR 4 (grid_points bs xs) = 4%nat /\
  get_sampling false bs 0 0 xs 2e-14 = (xs, Ok (NonUniform xs)).
Proof. exact crowded_cell_accepted. Qed.
Print Assumptions C106_crowded_refuted.

(** Finding: interp_points is documented as an input, but with periodic splines a point is appended to the vector of the
    caller; a second call with the same vector throws. *)
Theorem C106_argument_refuted : forall u bs n1 n2 xs TOL s,
  bs_periodic bs = true -> get_sampling u bs n1 n2 xs TOL = (fst (get_sampling u bs n1 n2 xs TOL), Ok s) -> xs <> [] ->
  fst (get_sampling u bs n1 n2 xs TOL) = (xs ++ [nth 0 xs 0 + (bs_rmax bs - bs_rmin bs)])%list /\
  forall u' TOL', get_sampling u' bs n1 n2 (fst (get_sampling u bs n1 n2 xs TOL)) TOL' =
    (fst (get_sampling u bs n1 n2 xs TOL), Throw).
Proof. exact argument_grows. Qed.
Print Assumptions C106_argument_refuted.

(** Finding: the uniform branch takes the step from the length of the domain, not from the points: equally spaced points
    that do not go from one end of the domain to the other are refused as "not uniform". *)
Theorem C106_inner_refuted :
  let bs := integer_splines 4 1 false 5 in
  let xs := [1/10; 1; 19/10; 28/10; 37/10] in
  spline_space bs 4 INR 1 /\ valid_points bs xs /\
  (forall i, (i < 4)%nat -> nth (i + 1) xs 0 - nth i xs 0 = 9/10) /\
  snd (get_sampling false bs 0 0 xs 2e-14) = Ok (NonUniform xs) /\
  snd (get_sampling true bs 0 0 xs 2e-14) = Throw.
Proof. exact inner_uniform_refused. Qed.
Print Assumptions C106_inner_refuted.

Example C106_case : spline_space (integer_splines 3 2 true 3) 3 INR 2 /\
  get_sampling false (integer_splines 3 2 true 3) 0 0 [INR 0; INR 1; INR 2] 2e-14 =
    ([INR 0; INR 1; INR 2; INR 3], Ok (NonUniform [INR 0; INR 1; INR 2; INR 3])).
Proof.
  split; [apply integer_space; lia|].
  exact (accepts_break_points (integer_splines 3 2 true 3) 3 INR 2 0 0 2e-14 (integer_space 3 2 true 3 ltac:(lia)) ltac:(lia) eq_refl).
Qed.

Open Scope string_scope.
(** C107: the simulation starts if and only if the command is "prog file" or "prog --iter-restart s file" with a .yaml or
    .yml file, from iteration 0 or from the number read in s. *)
Theorem C107_starts : forall can_open argv params f it,
  parse_arguments can_open argv params = Ok (Returns f it) <->
  (has_extension ".yaml" f \/ has_extension ".yml" f) /\
  exists prog, (argv = [prog; f] /\ it = 0%Z) \/
               (exists s, argv = [prog; "--iter-restart"; s; f] /\ it = strtol s).
Proof. exact parse_returns. Qed.
Print Assumptions C107_starts.

(** A restart at the iteration written in decimal, for every integer a long can hold. *)
Theorem C107_restart : forall can_open prog f z params,
  (has_extension ".yaml" f \/ has_extension ".yml" f) -> (- 2 ^ 63 <= z <= 2 ^ 63 - 1)%Z ->
  parse_arguments can_open [prog; "--iter-restart"; decimal z; f] params = Ok (Returns f z).
Proof. exact parse_restart. Qed.
Print Assumptions C107_restart.

(** Otherwise the program exits: with success only after --dump-config, the only case in which a file is written. *)
Theorem C107_exits : forall can_open argv params success files,
  parse_arguments can_open argv params = Ok (Exits success files) ->
  (success = true /\ exists prog file, argv = [prog; "--dump-config"; file] /\
     files = if can_open file then [(file, params)] else []) \/
  (success = false /\ files = []).
Proof. exact parse_exits. Qed.
Print Assumptions C107_exits.

(** Every command line with a program name has one of these two outcomes. *)
Theorem C107_total : forall can_open prog args params,
  exists e, parse_arguments can_open (prog :: args) params = Ok e.
Proof. exact parse_total. Qed.
Print Assumptions C107_total.

(** The overload without restart does the same, and refuses restarts. *)
Theorem C107_overload : forall can_open argv params,
  (forall prog s f, argv <> [prog; "--iter-restart"; s; f]) ->
  parse_arguments can_open argv params = parse_arguments_no_restart can_open argv params.
Proof. exact overloads_agree. Qed.
Print Assumptions C107_overload.
Theorem C107_overload_restart : forall can_open prog s f params,
  parse_arguments_no_restart can_open [prog; "--iter-restart"; s; f] params = Ok (Exits false []).
Proof. exact no_restart_overload. Qed.
Print Assumptions C107_overload_restart.

(** Finding: the iteration of a restart is not validated: a word restarts silently from iteration 0, "12abc" from 12, and
    negative iterations are accepted. *)
Theorem C107_restart_refuted : forall can_open params,
  parse_arguments can_open ["prog"; "--iter-restart"; "latest"; "run.yaml"] params = Ok (Returns "run.yaml" 0) /\
  parse_arguments can_open ["prog"; "--iter-restart"; "12abc"; "run.yaml"] params = Ok (Returns "run.yaml" 12) /\
  parse_arguments can_open ["prog"; "--iter-restart"; "-3"; "run.yaml"] params = Ok (Returns "run.yaml" (-3)).
Proof. intros; repeat split; reflexivity. Qed.
Print Assumptions C107_restart_refuted.

(** Finding: --dump-config reports success when the file cannot be created (the stream is not checked). *)
Theorem C107_dump_refuted : forall params,
  parse_arguments (fun _ => false) ["prog"; "--dump-config"; "/no/such/dir/x.yaml"] params = Ok (Exits true []).
Proof. reflexivity. Qed.
Print Assumptions C107_dump_refuted.

Example C107_case : has_extension ".yaml" "../runs/a.b/landau.v2.yaml" /\ decimal 120 = "120" /\
  is_yaml "runs/.yaml" = false /\ is_yaml "runs.yaml/landau" = false.
Proof.
  split; [|split; [reflexivity|split; reflexivity]].
  apply (extension_spec "../runs/a.b/landau.v2.yaml" "yaml");
    [apply absent_dec; reflexivity|apply absent_dec; reflexivity|discriminate|reflexivity].
Qed.
