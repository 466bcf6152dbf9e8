(** Concrete finite element problems: quadratic splines on a disc of 5 x 8 cells. *)
From Coq Require Import ZifyBool.
From Verif Require Import Lib LagDerivSpec DerivModel DerivRanges QuadModel FemModel FemSolve QuadProofs MappingModel MappingSpec MappingProofs MappingComb MatrixModel MatrixSpec MatrixOracle PspModel PspSpec PspBasis PspProofs PspMain PspTheorems PspEval PspPole PspExamples PpfModel PpfSpec PpfRows PpfPattern PpfCsr PpfMain PpfSolve PpfLimits.
Open Scope R_scope.

(** ** 8 poloidal cells; row i of the control points is i times a square *)
Definition knots8 (i : nat) : R := (INR i - 2) * (PI / 4).
Definition ring_t : bspace := cdb_space 2 8 knots8.
Definition sx (j : nat) : R := match (j mod 8)%nat with O | 1%nat | 7%nat => 1 | 2%nat | 6%nat => 0 | _ => -1 end.
Definition sy (j : nat) : R := match (j mod 8)%nat with 1%nat | 2%nat | 3%nat => 1 | O | 4%nat => 0 | _ => -1 end.
Definition field8 (N : nat) (f : nat -> R) : list R := map (fun p => INR (p / 10) * f (p mod 10)%nat) (seq 0 ((N + 2) * 10)).
Definition ring (N : nat) : dmap :=
  {| dm_x := field8 N sx; dm_y := field8 N sy;
     dm_ev := fun n m c r th => let* pr := b_eval (disc_r N) n r in let* pt := b_eval ring_t m th in
       Ok (tensor_spline (disc_r N) ring_t (field2 ring_t c) pr pt) |}.
Lemma ring_t_ok : bspline_space ring_t knots8.
Proof.
  pose proof PI_RGT_0. apply cdb_space_ok; [lia| |].
  - intros i Hi. unfold knots8. replace (INR (2 + i + 1)) with (INR (2 + i) + 1) by (rewrite !plus_INR; cbn; ring).
    apply Rmult_lt_compat_r; lra.
  - intros i j Hij. unfold knots8. apply Rmult_le_compat_r; [lra|]. pose proof (le_INR i j ltac:(lia)). lra.
Qed.
Lemma field8_value N f i j : (i < N + 2)%nat -> (j < 10)%nat -> field2 ring_t (field8 N f) i j = INR i * f j.
Proof.
  intros Hi Hj. unfold field2, field8. change (b_size ring_t) with 10%nat.
  set (F := fun p => INR (p / 10) * f (p mod 10)%nat).
  rewrite (nth_indep (map F _) 0 (F 0%nat)) by (rewrite map_length, seq_length; lia). rewrite map_nth, seq_nth by lia. unfold F. rewrite Nat.add_0_l.
  replace ((i * 10 + j) / 10)%nat with i by (rewrite Nat.div_add_l by lia; rewrite Nat.div_small by lia; lia).
  replace ((i * 10 + j) mod 10)%nat with j by (rewrite Nat.add_comm, Nat.mod_add by lia; rewrite Nat.mod_small by lia; reflexivity). reflexivity.
Qed.
Lemma ring_mapping N : polar_mapping (disc_r N) ring_t (ring N).
Proof.
  constructor.
  - cbn [ring dm_x]. unfold field8. rewrite map_length, seq_length. reflexivity.
  - cbn [ring dm_y]. unfold field8. rewrite map_length, seq_length. reflexivity.
  - intros i j Hi Hj. unfold ctrl_x. cbn [ring dm_x]. change (b_cells ring_t) with 8%nat. change (b_deg ring_t) with 2%nat in Hj. change (nbasis_r (disc_r N)) with (N + 2)%nat in Hi.
    rewrite !field8_value by lia. unfold sx. replace (j + 8)%nat with (j + 1 * 8)%nat by lia. rewrite Nat.mod_add by lia. reflexivity.
  - intros i j Hi Hj. unfold ctrl_y. cbn [ring dm_y]. change (b_cells ring_t) with 8%nat. change (b_deg ring_t) with 2%nat in Hj. change (nbasis_r (disc_r N)) with (N + 2)%nat in Hi.
    rewrite !field8_value by lia. unfold sy. replace (j + 8)%nat with (j + 1 * 8)%nat by lia. rewrite Nat.mod_add by lia. reflexivity.
  - intros n q c r th pr pt _ _ _ E1 E2. cbn [ring dm_ev]. rewrite E1. cbn [bind]. rewrite E2. reflexivity.
Qed.
Lemma ring_row0 N : row0_is ring_t (ring N) 0 0.
Proof.
  intros j Hj. change (b_size ring_t) with 10%nat in Hj. unfold ctrl_x, ctrl_y. cbn [ring dm_x dm_y]. rewrite !field8_value by lia. cbn [INR]. lra.
Qed.
Lemma ring_setup c1 : (c1 <= 2)%nat -> polar_setup c1 (disc_r 5) ring_t (knots_r 5) knots8 (ring 5) 0 0.
Proof.
  intros Hc. pose proof PI_RGT_0. constructor; auto using disc_r_ok, disc_r_clamped, ring_t_ok, ring_mapping, ring_row0.
  - apply disc_r_ok. lia.
  - cbn. lia.
  - assert (RM : b_rmin ring_t = 0) by (cbn [ring_t cdb_space b_rmin]; unfold knots8; cbn; lra).
    assert (RX : b_rmax ring_t = 2 * PI) by (cbn [ring_t cdb_space b_rmax]; unfold knots8; cbn [INR Nat.add]; field).
    split; [reflexivity|]. split; [rewrite RM, RX; ring|]. split; [rewrite RM, RX; lra|]. cbn [disc_r cdb_space b_cells b_deg]. lia.
  - intros _. exists 0%nat. split; [cbn; lia|]. unfold ctrl, ctrl_x, ctrl_y. cbn [ring dm_x dm_y]. rewrite !field8_value by lia. unfold sx. cbn. intros E. injection E. lra.
Qed.
(** ** Three points per cell, and the weights 1 *)
Definition third_points (h : R) (n : nat) : list R := map (fun k => h * (INR (k / 3) + (INR (k mod 3) + 1) / 4)) (seq 0 (n * 3)).
Lemma third_nth h n c k : (c < n)%nat -> (k <= 2)%nat -> nth (c * 3 + k) (third_points h n) 0 = h * (INR c + (INR k + 1) / 4).
Proof.
  intros Hc Hk. unfold third_points. set (F := fun k => h * (INR (k / 3) + (INR (k mod 3) + 1) / 4)).
  rewrite (nth_indep (map F _) 0 (F 0%nat)) by (rewrite map_length, seq_length; lia). rewrite map_nth, seq_nth by lia. unfold F. rewrite Nat.add_0_l.
  replace ((c * 3 + k) / 3)%nat with c by (rewrite Nat.div_add_l by lia; rewrite Nat.div_small by lia; lia).
  replace ((c * 3 + k) mod 3)%nat with k by (rewrite Nat.add_comm, Nat.mod_add by lia; rewrite Nat.mod_small by lia; reflexivity). reflexivity.
Qed.
Definition fem_disc (c1 : nat) (e : elements) : pfem :=
  {| pf_c1 := c1; pf_r := disc_r 5; pf_t := ring_t; pf_el := e; pf_qr := third_points 1 5; pf_qt := third_points (PI / 4) 8;
     pf_vol := repeat 1 (15 * 24) |}.
Lemma quarter k : (k <= 2)%nat -> 0 < (INR k + 1) / 4 < 1.
Proof. intros Hk. pose proof (pos_INR k). apply le_INR in Hk. cbn [INR] in Hk. lra. Qed.
Lemma fem_disc_setup c1 : (c1 <= 2)%nat -> exists e, fem_setup (fem_disc c1 e) (knots_r 5) knots8 (ring 5) 0 0.
Proof.
  intros Hc. destruct (setup_make _ _ _ _ _ _ _ _ (ring_setup c1 Hc)) as [e HE]. exists e. pose proof PI_RGT_0. constructor.
  - exact (ring_setup c1 Hc).
  - exact HE.
  - constructor; cbn; lia.
  - reflexivity.
  - reflexivity.
  - intros c k Hc' Hk. cbn [fem_disc pf_r pf_qr disc_r cdb_space b_deg b_cells] in *. change (2 + 1)%nat with 3%nat. rewrite third_nth by lia.
    unfold knots_r. replace (Nat.min (2 + c - 2) 5) with c by lia. replace (Nat.min (2 + c + 1 - 2) 5) with (c + 1)%nat by lia. rewrite plus_INR. cbn [INR]. pose proof (quarter k ltac:(lia)). lra.
  - intros c k Hc' Hk. cbn [fem_disc pf_t pf_qt ring_t cdb_space b_deg b_cells] in *. change (2 + 1)%nat with 3%nat. rewrite third_nth by lia.
    unfold knots8. replace (2 + c + 1)%nat with (c + 3)%nat by lia. replace (2 + c)%nat with (c + 2)%nat by lia. rewrite !plus_INR. cbn [INR]. pose proof (quarter k ltac:(lia)) as [Q1 Q2]. 
    replace ((INR c + (1 + 1) - 2) * (PI / 4)) with (PI / 4 * INR c) by ring. replace ((INR c + (1 + 1 + 1) - 2) * (PI / 4)) with (PI / 4 * (INR c + 1)) by ring.
    split; apply Rmult_lt_compat_l; lra.
  - reflexivity.
Qed.
(** ** - div (2 grad u) + u on the circular disc *)
Definition disc_equation : equation := {| eq_alpha := fun _ _ => Ok 2; eq_beta := fun _ _ => Ok 1; eq_map := circular 0 0 |}.
Lemma third_pos h n x : 0 < h -> In x (third_points h n) -> h / 4 <= x.
Proof.
  intros Hh Hx. apply in_map_iff in Hx. destruct Hx as [k [<- _]]. pose proof (pos_INR (k / 3)). pose proof (pos_INR (k mod 3)).
  replace (h / 4) with (h * (1 / 4)) by field. apply Rmult_le_compat_l; lra.
Qed.
Lemma disc_equation_ok c1 e : fem_equation (fem_disc c1 e) disc_equation (fun _ _ => 2) (fun _ _ => 1).
Proof.
  constructor; intros r th Hr Ht; [reflexivity|reflexivity|]. apply circ_invertible. cbn [c2]. cbn [fem_disc pf_qr] in Hr. pose proof (third_pos 1 5 r ltac:(lra) Hr).
  rewrite Rabs_right by lra. apply Rle_trans with (/ 4); [|lra]. unfold tiny. apply Rinv_le_contravar; [lra|]. simpl. lra.
Qed.
(** ** A solver: Gaussian elimination, followed by a check of the residual *)
Definition elim_cg (eps : R) : cg_solver := fun _ nnz cols vals _ b =>
  let n := length b in
  let A := csr_element nnz cols vals in
  let g := gauss n A (fun i => match nth i b None with Some v => v | None => 0 end) in
  let x := map g (seq 0 n) in
  if forallb (fun i => match nth i b None with
                       | Some bi => if Rle_dec (Rabs (Rsum n (fun j => A i j * nth j x 0) - bi)) eps then true else false
                       | None => true end) (seq 0 n)
  then Ok x else Throw.
Lemma elim_cg_ok eps : 0 <= eps -> cg_solves eps (elim_cg eps).
Proof.
  intros HE prec nnz cols vals guess b x E. unfold elim_cg in E. destruct (forallb _ _) eqn:F; [|discriminate E].
  assert (X := f_equal (fun r => match r with Ok s => s | _ => x end) E). cbv beta iota in X. split; [rewrite <- X, map_length, seq_length; reflexivity|].
  intros i bi Hb. rewrite forallb_forall in F. assert (Hi : (i < length b)%nat). { destruct (Nat.lt_ge_cases i (length b)) as [|H]; [assumption|]. rewrite nth_overflow in Hb by lia. discriminate. }
  specialize (F i ltac:(apply in_seq; lia)). rewrite Hb in F. rewrite X in F. destruct (Rle_dec _ _) as [H|H]; [exact H|discriminate F].
Qed.
Definition id_sched : schedule := fun _ n => seq 0 n.
Definition rev_sched : schedule := fun _ n => rev (seq 0 n).
Lemma id_sched_ok : any_order id_sched. Proof. intros k n. apply Permutation_refl. Qed.
Lemma rev_sched_ok : any_order rev_sched. Proof. intros k n. apply Permutation_sym, Permutation_rev. Qed.
(** ** The sizes which are accepted although the solver does not work for them *)
Definition sized (c1 d cr ct : nat) : pfem :=
  {| pf_c1 := c1; pf_r := {| b_deg := d; b_cells := cr; b_rmin := 0; b_rmax := 1; b_eval := fun _ _ => Ub |};
     pf_t := {| b_deg := d; b_cells := ct; b_rmin := 0; b_rmax := 2 * PI; b_eval := fun _ _ => Ub |};
     pf_el := []; pf_qr := []; pf_qt := []; pf_vol := [] |}.
Definition made_of (p : pfem) : pstate := match solver_make p id_sched with Ok s => s | _ => {| st_nnz := []; st_cols := []; st_vals := []; st_solvers := []; st_x := [] |} end.
(** 2 degree + 1 poloidal cells: the constructor returns, most of the column indices have not been written *)
Lemma five_cells (a b a' b' : R) f f' e qr qt vol :
  let p := {| pf_c1 := 2; pf_r := {| b_deg := 2; b_cells := 5; b_rmin := a; b_rmax := b; b_eval := f |};
              pf_t := {| b_deg := 2; b_cells := 5; b_rmin := a'; b_rmax := b'; b_eval := f' |};
              pf_el := e; pf_qr := qr; pf_qt := qt; pf_vol := vol |} in
  exists s, solver_make p id_sched = Ok s /\ (length (filter (fun o => match o with None => true | Some _ => false end) (st_cols s)) = 350%nat) /\ length (st_cols s) = 419%nat /\
    forall q sched s', any_order sched -> update_coefficients p q sched s <> Ok s'.
Proof.
  intros p. exists (made_of p).
  assert (M : solver_make p id_sched = Ok (made_of p)). { unfold made_of. destruct (solver_make p id_sched) eqn:E; [reflexivity| | |]; exfalso; revert E; vm_compute; discriminate. }
  split; [exact M|]. split; [vm_compute; reflexivity|]. split; [vm_compute; reflexivity|].
  assert (F1 : rd (st_nnz (made_of p)) (Z.of_nat (pf_ns p + 0)) = Ok 39%Z) by (vm_compute; reflexivity).
  assert (F2 : rd (st_nnz (made_of p)) (Z.of_nat (pf_ns p + 0) + 1) = Ok 57%Z) by (vm_compute; reflexivity).
  assert (F3 : rd (st_cols (made_of p)) (39 + 3 + Z.of_nat 0) = Ok (None (A := Z))) by (vm_compute; reflexivity).
  assert (F4 : to_2d p (Z.of_nat (pf_ns p + 0)) = Ok (2%Z, 0%Z)) by (vm_compute; reflexivity).
  assert (F5 : first_offset p 2 = 3%Z) by (vm_compute; reflexivity).
  assert (F6 : (0 < pf_nr p * pf_nt p)%nat) by (cbn; lia).
  clear M. clearbody p. revert F1 F2 F3. generalize (made_of p). intros s F1 F2 F3.
  intros q sched s' HO. unfold update_coefficients, assemble.
  destruct (par (sched 7%nat _) _ _) as [v| | |]; cbn [bind]; try discriminate. destruct (par (sched 8%nat _) _ _) as [v1| | |]; cbn [bind]; try discriminate.
  destruct (par (sched 9%nat _) _ _) as [v2| | |] eqn:E; cbn [bind]; try discriminate. exfalso. revert E. apply par_fails with 0%nat.
  - apply (Permutation_in 0%nat (Permutation_sym (HO 9%nat (pf_nr p * pf_nt p)%nat))). apply in_seq. lia.
  - intros w w'. unfold val_tensor_tensor. rewrite F4. cbn [bind]. rewrite F1. cbn [bind]. rewrite F2. cbn [bind fst]. rewrite F5.
    apply for_res_fails; [cbn; lia|]. intros u u'. cbv beta. rewrite F3. cbn [bind]. discriminate.
Qed.
Lemma four_cells (a b a' b' : R) f f' e qr qt vol :
  solver_make {| pf_c1 := 2; pf_r := {| b_deg := 2; b_cells := 5; b_rmin := a; b_rmax := b; b_eval := f |};
              pf_t := {| b_deg := 2; b_cells := 4; b_rmin := a'; b_rmax := b'; b_eval := f' |};
              pf_el := e; pf_qr := qr; pf_qt := qt; pf_vol := vol |} id_sched = Ub.
Proof. vm_compute. reflexivity. Qed.
