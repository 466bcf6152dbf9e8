(** C54: patch location and spline evaluation on an onion geometry. *)
From Verif Require Import OnionModel OnionSpec OnionProofs OnionEval.
Open Scope R_scope.

(** the constructor accepts exactly the patches whose radii follow each other within the tolerance *)
Theorem C54_constructor : forall ps, ps <> [] ->
  (nearly_rings ps /\ set_and_check_radii ps = Ok (first_radius ps :: map o_rmax ps)) \/
  (~ nearly_rings ps /\ set_and_check_radii ps = Throw).
Proof. exact radii_ok. Qed.
Print Assumptions C54_constructor.

(** rings that touch: the locator ends, and answers k exactly for the points of ring k, -1 beyond the
    outer radius and -2 below the inner one *)
Theorem C54_locator : forall ps r radii, ps <> [] -> wide ps -> rings ps -> set_and_check_radii ps = Ok radii ->
  (forall k, locate (S (length ps)) radii (length ps) r = Ok (Z.of_nat k) <-> in_ring ps k r) /\
  (locate (S (length ps)) radii (length ps) r = Ok (-1)%Z <-> last_radius ps < r) /\
  (locate (S (length ps)) radii (length ps) r = Ok (-2)%Z <-> r < first_radius ps) /\
  (exists z, locate (S (length ps)) radii (length ps) r = Ok z).
Proof. exact locate_exact. Qed.
Print Assumptions C54_locator.

(** patches accepted by the constructor: the point is in the chosen patch up to the tolerance *)
Theorem C54_locator_tolerance : forall ps r radii, ps <> [] -> wide ps -> set_and_check_radii ps = Ok radii ->
  (last_radius ps < r /\ locate (S (length ps)) radii (length ps) r = Ok (-1)%Z) \/
  (r < first_radius ps /\ locate (S (length ps)) radii (length ps) r = Ok (-2)%Z) \/
  (first_radius ps <= r <= last_radius ps /\
   exists k p, nth_error ps k = Some p /\ locate (S (length ps)) radii (length ps) r = Ok (Z.of_nat k) /\
     o_rmin p - / 10 ^ 14 <= r /\ (r < o_rmax p \/ (r = o_rmax p /\ S k = length ps))).
Proof. exact locate_near. Qed.
Print Assumptions C54_locator_tolerance.

(** values and derivatives inside the domain: the spline of the ring which contains the point, at its
    radius and at its angle brought back to the period.  [_partial]: the patches touch exactly (see
    [C54_gap_refuted]) and the mapping recovers the radius. *)
Theorem C54_evaluate_partial : forall to_physical to_logical ps d1 d2 ext r t k p s,
  all_ok (map fst ps) -> rings (map fst ps) ->
  fst (to_logical (to_physical (r, t))) = r ->
  nth_error ps k = Some (p, s) -> in_ring (map fst ps) k r ->
  exists t', b_rmin (o_b2 p) <= t' <= b_rmin (o_b2 p) + b_len (o_b2 p) /\ same_angle (b_len (o_b2 p)) t' t /\
    (b_rmin (o_b2 p) <= t <= b_rmin (o_b2 p) + b_len (o_b2 p) -> t' = t) /\
    evaluate to_physical to_logical (S (length ps)) d1 d2 ext ps (r, t) = Ok (spline_value p s d1 d2 r t').
Proof. exact evaluate_inside. Qed.
Print Assumptions C54_evaluate_partial.

(** derivatives outside the domain stop the program *)
Theorem C54_derivative_outside : forall to_physical to_logical ps d1 d2 ext r t,
  all_ok (map fst ps) -> rings (map fst ps) -> ps <> [] ->
  fst (to_logical (to_physical (r, t))) = r -> (d1 || d2)%bool = true ->
  (r < first_radius (map fst ps) \/ last_radius (map fst ps) < r) ->
  evaluate to_physical to_logical (S (length ps)) d1 d2 ext ps (r, t) = Throw.
Proof. exact evaluate_deriv_outside. Qed.
Print Assumptions C54_derivative_outside.

(** extrapolation: 0 with the null rule ... *)
Theorem C54_null_extrapolation : forall to_physical to_logical ps r t,
  all_ok (map fst ps) -> rings (map fst ps) -> ps <> [] ->
  fst (to_logical (to_physical (r, t))) = r ->
  (r < first_radius (map fst ps) \/ last_radius (map fst ps) < r) ->
  evaluate to_physical to_logical (S (length ps)) false false null_rule ps (r, t) = Ok 0.
Proof. exact evaluate_null. Qed.
Print Assumptions C54_null_extrapolation.

(** ... and the boundary value at the same angle with the constant rule *)
Theorem C54_constant_extrapolation : forall to_physical to_logical ps r t tmin tlen,
  all_ok (map fst ps) -> rings (map fst ps) -> same_theta (map fst ps) tmin tlen -> ps <> [] ->
  fst (to_logical (to_physical (r, t))) = r ->
  let rule := constant_rule (first_radius (map fst ps)) (last_radius (map fst ps)) in
  exists t', tmin <= t' <= tmin + tlen /\ same_angle tlen t' t /\
  (forall p s, nth_error ps 0 = Some (p, s) -> r < first_radius (map fst ps) ->
    evaluate to_physical to_logical (S (length ps)) false false rule ps (r, t) = Ok (spline_value p s false false (o_rmin p) t')) /\
  (forall p s, nth_error ps (length ps - 1) = Some (p, s) -> last_radius (map fst ps) < r ->
    evaluate to_physical to_logical (S (length ps)) false false rule ps (r, t) = Ok (spline_value p s false false (o_rmax p) t')).
Proof. exact evaluate_constant. Qed.
Print Assumptions C54_constant_extrapolation.

(** evaluating on a field of coordinates is evaluating at each of them *)
Theorem C54_fields : forall to_physical to_logical ps d1 d2 ext m coords values vals, length values = m ->
  (forall i, (i < m)%nat -> evaluate to_physical to_logical (S (length ps)) d1 d2 ext ps (coords i) = Ok (vals i)) ->
  apply_evaluator to_physical to_logical (S (length ps)) d1 d2 ext ps m coords values = Ok (map vals (seq 0 m)).
Proof. exact apply_ok. Qed.
Print Assumptions C54_fields.

Theorem C54_fields_abort : forall to_physical to_logical ps d1 d2 ext m coords values i, (i < m)%nat -> length values = m ->
  (forall j, (j < i)%nat -> exists y, evaluate to_physical to_logical (S (length ps)) d1 d2 ext ps (coords j) = Ok y) ->
  evaluate to_physical to_logical (S (length ps)) d1 d2 ext ps (coords i) = Throw ->
  apply_evaluator to_physical to_logical (S (length ps)) d1 d2 ext ps m coords values = Throw.
Proof. exact apply_aborts. Qed.
Print Assumptions C54_fields_abort.

(** integrate: element k is the integral of the spline of patch k, given the integrals of the basis *)
Theorem C54_integrate : forall ps out, length out = length ps ->
  integrate_from 0 ps out =
  Ok (map (fun ps => Rsum (b_n (o_b1 (fst ps))) (fun i => Rsum (b_n (o_b2 (fst ps))) (fun j =>
        snd ps i j * b_int (o_b1 (fst ps)) i * b_int (o_b2 (fst ps)) j))) ps).
Proof. exact integrate_ok. Qed.
Print Assumptions C54_integrate.

(** the norm of a multipatch field is the largest absolute value over all the patches *)
Theorem C54_norm : forall fs, is_max (map Rabs (concat fs)) (norm_inf_multipatch fs).
Proof. exact norm_multipatch. Qed.
Print Assumptions C54_norm.

Theorem C54_error_norm : forall fs gs, (forall fg, In fg (combine fs gs) -> length (fst fg) = length (snd fg)) ->
  error_norm_inf_multipatch fs gs =
  norm_inf_multipatch (map (fun fg => map (fun xy => fst xy - snd xy) (combine (fst fg) (snd fg))) (combine fs gs)).
Proof. exact error_norm_multipatch. Qed.
Print Assumptions C54_error_norm.

(** Finding: two patches may be separated by up to 1e-14; a point of the gap is sent to the outer patch,
    which does not contain it *)
Theorem C54_gap_refuted : exists ps r radii,
  all_ok ps /\ set_and_check_radii ps = Ok radii /\ first_radius ps <= r <= last_radius ps /\
  exists k p, locate (S (length ps)) radii (length ps) r = Ok (Z.of_nat k) /\ nth_error ps k = Some p /\
    ~ (o_rmin p <= r <= o_rmax p) /\
    forall s, evaluate (fun c => c) (fun c => c) (S (length ps)) false false null_rule (map (fun p => (p, s)) ps) (r, 0) = AssertFail.
Proof. exact gap_refuted. Qed.
Print Assumptions C54_gap_refuted.

(** Non-vacuity: three rings [0,1], [1,3], [3,4]; the point of radius 2 is in the second one and a
    spline is evaluated there *)
Example onion_example :
  let ps := [ring_patch 0 1; ring_patch 1 3; ring_patch 3 4] in
  all_ok ps /\ wide ps /\ rings ps /\ same_theta ps 0 1 /\ in_ring ps 1 2 /\ in_ring ps 1 1 /\ in_ring ps 2 4 /\
  last_radius ps < 5 /\ first_radius ps <= 0.
Proof.
  assert (A : all_ok [ring_patch 0 1; ring_patch 1 3; ring_patch 3 4]).
  { intros p [<-|[<-|[<-|[]]]]; apply ring_patch_ok; lra. }
  cbv zeta. split; [exact A|]. split; [intros p Hp; apply (A p Hp)|]. split.
  { intros [|[|[|i]]] p q Hp Hq; cbn in Hp, Hq; try discriminate; injection Hp as <-; injection Hq as <-; reflexivity. }
  split; [intros p [<-|[<-|[<-|[]]]]; split; reflexivity|].
  split; [exists (ring_patch 1 3); cbn; repeat split; lra|].
  split; [exists (ring_patch 1 3); cbn; repeat split; lra|].
  split; [exists (ring_patch 3 4); cbn; repeat split; try lra; right; split; [lra|reflexivity]|].
  unfold last_radius; cbn; lra.
Qed.

Example onion_value : forall s, evaluate (fun c => c) (fun c => c) 3 false false null_rule
  [(ring_patch 0 1, fun _ _ => 5); (ring_patch 1 3, fun _ _ => s)] (2, 1 / 2) =
  Ok (spline_value (ring_patch 1 3) (fun _ _ => s) false false 2 (1 / 2)) /\
  spline_value (ring_patch 1 3) (fun _ _ => s) false false 2 (1 / 2) = s.
Proof.
  intros s. split.
  - destruct (C54_evaluate_partial (fun c => c) (fun c => c)
      [(ring_patch 0 1, fun _ _ => 5); (ring_patch 1 3, fun _ _ => s)] false false null_rule 2 (1 / 2) 1
      (ring_patch 1 3) (fun _ _ => s)) as [t' [_ [_ [T E]]]]; try reflexivity.
    + intros p [<-|[<-|[]]]; apply ring_patch_ok; lra.
    + intros [|[|i]] p q Hp Hq; cbn in Hp, Hq; try discriminate; injection Hp as <-; injection Hq as <-; reflexivity.
    + exists (ring_patch 1 3). cbn; repeat split; lra.
    + rewrite T in E by (cbn; lra). exact E.
  - unfold spline_value, basis_fun. cbn.
    destruct (Rle_dec 1 2); [|lra]. destruct (Rle_dec 2 3); [|lra].
    destruct (Rle_dec 0 (1 / 2)); [|lra]. destruct (Rle_dec (1 / 2) 1); [|lra]. cbn. ring.
Qed.
