(** Non-vacuity of C66 and C67. *)
From Coq Require Import ZifyBool.
From Verif Require Import LagDerivSpec LagrangeProofs LagrangeStencilProofs LagrangeEvalProofs LagDerivProofs LagDerivMain LagDerivBuild QuadProofs.
From Coq Require Import Lra Lia.
Open Scope R_scope.

Notation bb := ex_non_uniform.
Lemma bb_facts : initialised bb /\ separated bb /\ in_domain bb 2.
Proof.
  destruct example_non_uniform as (b & E & A & B & C). assert (b = bb) by (unfold non_uniform_basis in E; cbn in E; unfold ex_non_uniform; congruence).
  subst b. auto.
Qed.
Lemma bb_kn i : (i < 5)%nat -> kn bb i = nth i [0; 1; 3; 4; 9] 0.
Proof. reflexivity. Qed.
Lemma ex_basis : exists b, initialised b /\ b_degree b = 2%nat /\ (1 + b_degree b < length (b_knots b))%nat /\
  kn b 1 <= 2 <= kn b (1 + b_degree b) /\ (2 <= b_degree b)%nat /\ (2 <= 20)%nat.
Proof.
  exists bb. destruct bb_facts as (A & _). split; [exact A|]. split; [reflexivity|]. split; [cbn; lia|].
  split; [unfold kn; cbn; lra|]. cbn. lia.
Qed.
Lemma bb_far y : (forall i, (i < 5)%nat -> / 100 < Rabs (y - nth i [0; 1; 3; 4; 9] 0)) ->
  forall i, (i < length (b_knots bb))%nat -> tolerance bb < Rabs (y - kn bb i).
Proof.
  intros H i Hi. assert (T : tolerance bb = dbl_epsilon * 4) by reflexivity. rewrite T.
  assert (i < 5)%nat by (exact Hi). rewrite bb_kn by auto. specialize (H i ltac:(auto)).
  assert (dbl_epsilon * 4 < / 100); [|lra]. unfold dbl_epsilon.
  assert (2 ^ 10 <= 2 ^ 52) by (apply Rle_pow; [lra|lia]). assert (/ 2 ^ 52 <= / 2 ^ 10).
  { apply Rinv_le_contravar; [apply pow_lt; lra|auto]. }
  assert (/ 2 ^ 10 * 4 < / 100); [|lra].
  replace (2 ^ 10) with 1024 by (cbn; ring). lra.
Qed.
Lemma far2 : forall i, (i < 5)%nat -> / 100 < Rabs (2 - nth i [0; 1; 3; 4; 9] 0).
Proof. intros i Hi. assert (i = 0 \/ i = 1 \/ i = 2 \/ i = 3 \/ i = 4)%nat as [->|[->|[->|[->| ->]]]] by lia; cbn; unfold Rabs; destruct (Rcase_abs _); lra. Qed.
Lemma far6 : forall i, (i < 5)%nat -> / 100 < Rabs (6 - nth i [0; 1; 3; 4; 9] 0).
Proof. intros i Hi. assert (i = 0 \/ i = 1 \/ i = 2 \/ i = 3 \/ i = 4)%nat as [->|[->|[->|[->| ->]]]] by lia; cbn; unfold Rabs; destruct (Rcase_abs _); lra. Qed.
Lemma square_deriv : nth_derivative 1 (peval [0; 0; 1]) (fun x => 2 * x).
Proof.
  exists (fun k x => match k with O => peval [0; 0; 1] x | _ => 2 * x end). split; [auto|]. split; [|auto].
  intros k x Hk. assert (k = 0)%nat as -> by lia. apply (derivable_pt_lim_ext' (fun x => x ^ 2)); [intros; cbn; ring|].
  replace (2 * x) with (INR 2 * x ^ pred 2) by (cbn; ring). apply derivable_pt_lim_pow.
Qed.
Lemma id_deriv p : nth_derivative 0 (peval p) (peval p).
Proof. exists (fun _ => peval p). split; [auto|]. split; [intros; lia|auto]. Qed.
Lemma ex_square sc : exists b, initialised b /\ lagrange_deriv sc b 1 (map (fun y => y * y) (b_knots b)) 2 = Ok 4.
Proof.
  exists bb. destruct bb_facts as (A & B & C). split; [exact A|].
  destruct (deriv_poly sc bb 1 (map (fun y => y * y) (b_knots bb)) [0; 0; 1] 2 (fun x => 2 * x) A eq_refl) as (x2 & E & _ & F).
  - now rewrite map_length.
  - exact C.
  - cbn; lia.
  - lia.
  - cbn; lia.
  - intros i Hi. rewrite (nth_indep _ 0 (0 * 0)) by (rewrite map_length; exact Hi). rewrite (map_nth (fun y => y * y)). unfold kn. cbn [peval]. ring.
  - exact square_deriv.
  - rewrite E. rewrite F by (apply bb_far, far2). f_equal; try ring.
Qed.
Lemma ex_order : exists b, initialised b /\ in_domain b 2 /\ (b_degree b < 3)%nat.
Proof. exists bb. destruct bb_facts as (A & B & C). split; [auto|]. split; [auto|]. cbn. lia. Qed.
Lemma ex_product sc : exists b, initialised b /\ admissible [(b, Some 1%nat); (b, None)] [2; 6] /\
  nd_eval sc [(b, Some 1%nat); (b, None)] [2; 6]
    (fun l => match l with [i; j] => Ok (kn b (Z.to_nat i) * kn b (Z.to_nat i) * kn b (Z.to_nat j)) | _ => Ub end) = Ok 24.
Proof.
  exists bb. destruct bb_facts as (A & B & C). split; [exact A|].
  assert (AD : admissible [(bb, Some 1%nat); (bb, None)] [2; 6]).
  { split; [exact A|]. split; [exact C|]. split; [cbn; lia|]. split; [cbn; lia|]. split; [discriminate|].
    split; [exact A|]. split; [unfold in_domain, kn; cbn; lra|]. cbn. lia. }
  split; [exact AD|].
  destruct (nd_poly sc [(bb, Some 1%nat); (bb, None)] [2; 6] 1 (fun _ => 1) (fun _ d => if (d =? 0)%nat then [0; 0; 1] else [0; 1])
     (fun _ d => if (d =? 0)%nat then (fun x => 2 * x) else peval [0; 1])
     (fun l => match l with [i; j] => Ok (kn bb (Z.to_nat i) * kn bb (Z.to_nat i) * kn bb (Z.to_nat j)) | _ => Ub end) AD) as (x2 & NR & E).
  - intros bo [<-|[<-|[]]]; reflexivity.
  - intros q d bo _ Hd. destruct d as [|[|d]]; cbn in Hd.
    + injection Hd as <-. split; [cbn; lia|]. exact square_deriv.
    + injection Hd as <-. split; [cbn; lia|]. apply id_deriv.
    + destruct d; discriminate.
  - intros [|i [|j [|k l]]] HL; cbn [coef_index] in HL; try tauto. cbn [map]. rewrite !Nat2Z.id. f_equal.
    unfold product_at. cbn [length prod_upto nth fst Rsum Nat.eqb peval]. ring.
  - rewrite E. destruct x2 as [|y1 [|y2 [|]]]; cbn [evaluated_near] in NR; try tauto.
    destruct NR as (_ & N1 & _ & N2 & _). rewrite N1 by (apply bb_far, far2). rewrite N2 by (apply bb_far, far6).
    f_equal. cbn [length prod_upto nth Rsum Nat.eqb peval]. ring.
Qed.
Lemma ex_knots : exists b, let dims := [(b, None); (b, @None nat)] in
  (forall bo, In bo dims -> initialised (fst bo) /\ separated (fst bo) /\ b_periodic (fst bo) = false /\ snd bo = None) /\
  dims <> [] /\ coef_index dims [3; 1]%nat.
Proof.
  exists bb. destruct bb_facts as (A & B & C). cbv zeta. split; [|split; [discriminate|]].
  - intros bo [<-|[<-|[]]]; cbn [fst snd]; auto.
  - cbn. lia.
Qed.
Lemma ex_outside : exists b, initialised b /\ b_uniform b = false /\ ~ in_domain b 10 /\ in_domain b 2 /\
  lagrange_eval b Constant Constant (map (fun y => y * y) (b_knots b)) 10 = Ok 81.
Proof.
  exists bb. destruct bb_facts as (A & B & C). split; [exact A|]. split; [reflexivity|].
  split; [unfold in_domain, kn; cbn; lra|]. split; [exact C|].
  destruct (build_extrapolation bb Constant Constant (map (fun y => y * y) (b_knots bb)) 10 A eq_refl eq_refl) as (coef & E & _ & U).
  assert (coef = map (fun y => y * y) (b_knots bb)) as -> by (cbn in E; cbn; congruence).
  rewrite U by (unfold kn; cbn; lra). cbn. f_equal. ring.
Qed.
Lemma ex_builder : let dims := [{| id_per := false; id_bp := 3; id_full := 3 |}; {| id_per := true; id_bp := 6; id_full := 9 |}] in
  (forall d, In d dims -> id_sizes d) /\ (forall j, (j < length dims)%nat -> j <> 1%nat -> id_per (nth j dims id_none) = false) /\
  id_index dims [2; 7]%nat /\ id_point dims [2; 7]%nat = [2; 2]%nat.
Proof.
  cbv zeta. split; [|split; [|split]].
  - intros d [<-|[<-|[]]]; cbn; lia.
  - intros [|[|j]] Hj N; cbn in *; try reflexivity; lia.
  - split; [reflexivity|]. intros [|[|k]] Hk; cbn in *; lia.
  - reflexivity.
Qed.
Lemma ex_two : let d := {| id_per := true; id_bp := 6; id_full := 9 |} in
  exists F, nd_identity_builder [d; d] (fun _ => 1) (fun _ => 0) = Ok F /\ id_index [d; d] [0; 5]%nat /\ F [0; 5]%nat = 0 /\ F [5; 5]%nat = 1.
Proof.
  cbv zeta. eexists. split; [reflexivity|]. split; [|split; reflexivity].
  split; [reflexivity|]. intros [|[|k]] Hk; cbn in *; lia.
Qed.
