(** Curl, vector bracket and gradient in components. *)
From Coq Require Import Lia Lra FunctionalExtensionality.
From Verif Require Import TensorSpec TensorProofs TensorMulProofs TensorStaticProofs.
From Verif Require Import DiffOpModel DiffOpSpec MappingVec DiffOpProofs.
Open Scope R_scope.

Lemma tensor_mul_ok fs s (T : nat -> R) : fs <> [] -> check_all (pattern_of fs) = true ->
  Forall (fun m => proper_set (snd m)) (pattern_of fs) -> Forall factor_ok fs ->
  free_sets (pattern_of fs) = [s] -> free_letters (pattern_of fs) <> [] -> NoDup s ->
  (forall k, (k < length s)%nat -> einstein fs [k] = T k) ->
  tensor_result (tensor_mul (map fst fs)) = Ok (map T (seq 0 (length s))).
Proof.
  intros H1 H2 H3 H4 H5 H6 HN H7.
  destruct (tensor_mul_tensor_spec fs) as [data [E [L C]]]; auto; [apply check_all_spec; auto|].
  rewrite E. cbn [tensor_result bind]. f_equal. rewrite H5 in L, C.
  assert (L' : length data = length s) by (rewrite L; unfold n_elements; cbn; lia).
  apply nth_ext with 0 0; [rewrite map_length, seq_length; auto|].
  intros k Hk. rewrite L' in Hk.
  assert (HB : in_box (extents [s]) [k]) by (cbn; lia).
  pose proof (C [k] HB) as C1. rewrite H7 in C1 by auto.
  pose proof (stored_represents [s] data) as SR. specialize (SR ltac:(repeat constructor; auto)).
  assert (L2 : length data = n_elements [s]) by (rewrite L; reflexivity).
  specialize (SR L2 [k] HB). rewrite SR in C1. cbn in C1.
  assert (E1 : nth k data 0 = T k) by congruence. rewrite E1.
  rewrite nth_indep with (d' := T 0%nat) by (rewrite map_length, seq_length; auto).
  rewrite map_nth, seq_nth; auto.
Qed.

Lemma indexed_ok ids sets data : length ids = length sets -> NoDup ids -> indexed ids sets data = Ok (fst (stored ids sets data)).
Proof.
  intros HL HN. unfold indexed, index_tensor, stored. rewrite HL, Nat.eqb_refl. cbn [andb fst].
  assert (HU : NoDup (combine ids sets)).
  { revert sets HL. induction HN as [|x l Hx HN IH]; intros [|s t] HL; cbn in *; try discriminate; constructor; auto.
    intros C. apply Hx. apply in_combine_l in C. exact C. }
  apply (has_unique_spec id_map_dec) in HU. rewrite HU. reflexivity.
Qed.

Definition curl_sum (coeff : R) (df : list R) (k : nat) : R :=
  Rsum 3 (fun l => Rsum 3 (fun m => IZR (eps [k; l; m]) * coeff * comp2 3 df m l)).
Lemma curl_value cart m p df : 1 / 10 ^ 19 <= Rabs (m_jac m p) -> (cart = true -> m_jac m p = 1) ->
  length df = 9%nat -> curl cart m p df = Ok (map (curl_sum (1 / m_jac m p) df) (seq 0 3)).
Proof.
  intros HJ HC H1. unfold curl. rewrite coeff_ok by auto. cbn [bind]. set (c := 1 / m_jac m p). clearbody c.
  assert (E : tensor_result (tensor_mul (map fst [levi [cK; cL; cM] (basis cart 3) c;
              stored [cM; cL] [cov_basis cart 3; cov_basis cart 3] df])) =
              Ok (map (curl_sum c df) (seq 0 (length (basis cart 3))))).
  { apply tensor_mul_ok.
    - discriminate.
    - destruct cart; reflexivity.
    - rewrite levi_pattern. unfold pattern_of, stored. cbn [map concat app it_pattern fst combine]. forall_ok.
    - forall_ok; destruct cart; auto.
    - destruct cart; reflexivity.
    - destruct cart; discriminate.
    - apply basis_nodup.
    - intros k Hk. assert (k = 0 \/ k = 1 \/ k = 2)%nat as [->| [->| ->]] by (destruct cart; cbn in Hk; lia);
      unfold einstein, curl_sum, comp2; destruct cart; cbn; ring. }
  replace (length (basis cart 3)) with 3%nat in E by (destruct cart; auto).
  rewrite <- E. destruct cart; reflexivity.
Qed.

(** the rows of a matrix stored by rows of 3 *)
Definition row3 (d : list R) (k : nat) : list R := [comp2 3 d k 0; comp2 3 d k 1; comp2 3 d k 2].
Lemma bracket_vec_value cart m p sg df dg B : 1 / 10 ^ 19 <= Rabs (m_jac m p) -> (cart = true -> m_jac m p = 1) ->
  proper_set sg -> sg <> [] ->
  length df = 3%nat -> length dg = (length sg * 3)%nat -> length B = 3%nat ->
  let g := mat_data 3 (metric 3 m p) in
  bracket_vec cart m p sg df dg B =
  Ok (map (fun k => bracket_sum (1 / m_jac m p) g (tensor_div B (sqrt (quad_form g B))) df (row3 dg k)) (seq 0 (length sg))).
Proof.
  intros HJ HC HP HN H1 H2 H3 g. unfold bracket_vec. rewrite coeff_ok by auto. cbn [bind]. rewrite norm_ok by auto. cbn [bind].
  fold g. set (b := tensor_div B (sqrt (quad_form g B))).
  assert (Hb : length b = 3%nat) by (subst b; unfold tensor_div; rewrite map_length; auto).
  assert (Hg : length g = 9%nat) by reflexivity.
  clearbody b g. set (c := 1 / m_jac m p). clearbody c.
  assert (E : tensor_result (tensor_mul (map fst [levi [cI; cJ; cK] (basis cart 3) c;
              stored [cI; cL] [cov_basis cart 3; cov_basis cart 3] g; stored [cL] [basis cart 3] b;
              stored [cJ] [cov_basis cart 3] df; stored [cM; cK] [sg; cov_basis cart 3] dg])) =
            Ok (map (fun k => bracket_sum c g b df (row3 dg k)) (seq 0 (length sg)))).
  { apply tensor_mul_ok.
    - discriminate.
    - destruct cart; reflexivity.
    - rewrite levi_pattern. unfold pattern_of, stored. cbn [map concat app it_pattern fst combine]. forall_ok; auto.
    - destruct HP as [HD _]. forall_ok; try (destruct cart; auto; fail).
    - destruct cart; reflexivity.
    - destruct cart; discriminate.
    - apply HP.
    - intros k Hk. unfold einstein, bracket_sum, comp, row3, comp2. destruct cart; cbn; ring. }
  rewrite (indexed_ok [cM; cK]) by (auto; repeat constructor; cbn; intuition discriminate).
  rewrite <- E. destruct cart; reflexivity.
Qed.
