(** Proofs about the differential operators. *)
From Coq Require Import Lia Lra FunctionalExtensionality.
From Verif Require Import TensorSpec TensorProofs TensorMulProofs TensorStaticProofs.
From Verif Require Import DiffOpModel DiffOpSpec MappingVec.
Open Scope R_scope.

Lemma basis_nodup cart n : NoDup (basis cart n).
Proof. unfold basis. destruct cart; apply FinFun.Injective_map_NoDup; try apply seq_NoDup; intros a b; congruence. Qed.
Lemma cov_basis_nodup cart n : NoDup (cov_basis cart n).
Proof. unfold cov_basis, basis. rewrite map_map. destruct cart; apply FinFun.Injective_map_NoDup; try apply seq_NoDup; intros a b; simpl; congruence. Qed.
Lemma basis_proper cart n : proper_set (basis cart n).
Proof. split; [apply basis_nodup|right]. intros t Ht. apply in_map_iff in Ht. destruct Ht as [x [<- _]]. destruct cart; reflexivity. Qed.
Lemma cov_basis_proper cart n : proper_set (cov_basis cart n).
Proof.
  split; [apply cov_basis_nodup|left]. intros t Ht. apply in_map_iff in Ht. destruct Ht as [x [<- Hx]].
  apply in_map_iff in Hx. destruct Hx as [y [<- _]]. destruct cart; reflexivity.
Qed.

(** a stored tensor and the Levi-Civita tensor as factors of a product *)
Definition stored (ids : list nat) (sets : list index_set) (data : list R) : factor :=
  ({| it_pattern := combine ids sets; it_get := tensor_get sets data |},
   fun pos => nth (layout_right (extents sets) pos) data 0).
Definition levi (ids : list nat) (s : index_set) (coeff : R) : factor :=
  ({| it_pattern := combine ids (repeat s (length s)); it_get := levi_civita_get s coeff |},
   fun pos => IZR (eps pos) * coeff).
Lemma combine_snd {A B} (l : list A) (l' : list B) : length l = length l' -> map snd (combine l l') = l'.
Proof. revert l'. induction l; destruct l'; simpl; intros; try discriminate; auto. f_equal; auto. Qed.
Lemma stored_ok ids sets data : length ids = length sets -> Forall (@NoDup tag) sets -> length data = n_elements sets ->
  factor_ok (stored ids sets data).
Proof. intros HL HD HN. unfold factor_ok, stored. cbn. rewrite combine_snd by auto. apply stored_represents; auto. Qed.
Lemma levi_ok ids s coeff : length ids = length s -> NoDup s -> factor_ok (levi ids s coeff).
Proof.
  intros HL HD. unfold factor_ok, levi. cbn. rewrite combine_snd by (rewrite repeat_length; auto).
  apply levi_civita_spec; auto.
Qed.
Lemma nelem_3 cart (ss : bool) : length (if ss then basis cart 3 else cov_basis cart 3) = 3%nat.
Proof. destruct ss, cart; reflexivity. Qed.

Lemma coeff_ok cart J : 1 / 10 ^ 19 <= Rabs J -> (cart = true -> J = 1) -> levi_civita_coeff (basis cart 3) J = Ok (1 / J).
Proof.
  intros HJ HC. unfold levi_civita_coeff. destruct cart; cbn [is_cov_set basis map forallb seq is_cov andb].
  - rewrite HC by auto. f_equal. lra.
  - destruct (Rlt_dec (Rabs J) (1 / 10 ^ 19)); [lra|reflexivity].
Qed.

Ltac forall_ok := repeat match goal with
  | |- Forall _ [] => constructor
  | |- Forall _ (_ :: _) => constructor
  | |- NoDup (basis _ _) => apply basis_nodup
  | |- NoDup (cov_basis _ _) => apply cov_basis_nodup
  | |- proper_set (snd _) => cbn [snd]
  | |- proper_set _ => first [apply basis_proper | apply cov_basis_proper]
  | |- factor_ok (stored _ _ _) => apply stored_ok
  | |- factor_ok (levi _ _ _) => apply levi_ok
  end.

Definition quad_form (g v : list R) : R :=
  Rsum 3 (fun i => Rsum 3 (fun j => comp v i * comp2 3 g i j * comp v j)).
Lemma scalar_mul fs v : fs <> [] -> check_all (pattern_of fs) = true ->
  Forall (fun m => proper_set (snd m)) (pattern_of fs) -> Forall factor_ok fs -> free_letters (pattern_of fs) = [] ->
  einstein fs [] = v -> scalar_result (tensor_mul (map fst fs)) = Ok v.
Proof.
  intros H1 H2 H3 H4 H5 <-. rewrite tensor_mul_scalar_spec; auto. apply check_all_spec; auto.
Qed.
Lemma norm_ok cart g v : length g = 9%nat -> length v = 3%nat ->
  norm_vec (basis cart 3) g v = Ok (sqrt (quad_form g v)).
Proof.
  intros Hg Hv.
  assert (E : scalar_result (tensor_mul (map fst [stored [cI] [basis cart 3] v; stored [cI; cJ] [cov_basis cart 3; cov_basis cart 3] g;
                                   stored [cJ] [basis cart 3] v])) = Ok (quad_form g v)).
  { apply scalar_mul.
    - discriminate.
    - destruct cart; reflexivity.
    - unfold pattern_of, stored, levi. cbn [map concat app it_pattern fst combine]. forall_ok.
    - forall_ok; destruct cart; auto.
    - destruct cart; reflexivity.
    - unfold einstein, quad_form, comp, comp2. destruct cart; cbn; ring. }
  transitivity (let* x := Ok (quad_form g v) in Ok (sqrt x)); [|reflexivity].
  rewrite <- E. destruct cart; reflexivity.
Qed.
Definition bracket_sum (coeff : R) (g b df dg : list R) : R :=
  Rsum 3 (fun i => Rsum 3 (fun j => Rsum 3 (fun k => Rsum 3 (fun l =>
    IZR (eps [i; j; k]) * coeff * comp2 3 g i l * comp b l * comp df j * comp dg k)))).
Lemma levi_pattern a b c cart x l : pattern_of (levi [a; b; c] (basis cart 3) x :: l) =
  (a, basis cart 3) :: (b, basis cart 3) :: (c, basis cart 3) :: pattern_of l.
Proof. reflexivity. Qed.
Lemma bracket_value cart m p df dg B : 1 / 10 ^ 19 <= Rabs (m_jac m p) -> (cart = true -> m_jac m p = 1) ->
  length df = 3%nat -> length dg = 3%nat -> length B = 3%nat ->
  let g := mat_data 3 (metric 3 m p) in
  bracket cart m p df dg B = Ok (bracket_sum (1 / m_jac m p) g (tensor_div B (sqrt (quad_form g B))) df dg).
Proof.
  intros HJ HC H1 H2 H3 g. unfold bracket. rewrite coeff_ok by auto. cbn [bind]. rewrite norm_ok by auto. cbn [bind].
  fold g. set (b := tensor_div B (sqrt (quad_form g B))).
  assert (Hb : length b = 3%nat) by (subst b; unfold tensor_div; rewrite map_length; auto).
  assert (Hg : length g = 9%nat) by reflexivity.
  clearbody b g. set (c := 1 / m_jac m p). clearbody c.
  assert (E : scalar_result (tensor_mul (map fst [levi [cI; cJ; cK] (basis cart 3) c;
              stored [cI; cL] [cov_basis cart 3; cov_basis cart 3] g; stored [cL] [basis cart 3] b;
              stored [cJ] [cov_basis cart 3] df; stored [cK] [cov_basis cart 3] dg])) = Ok (bracket_sum c g b df dg)).
  { apply scalar_mul.
    - discriminate.
    - destruct cart; reflexivity.
    - rewrite levi_pattern. unfold pattern_of, stored. cbn [map concat app it_pattern fst combine]. forall_ok.
    - forall_ok; destruct cart; auto.
    - destruct cart; reflexivity.
    - unfold einstein, bracket_sum, comp, comp2. destruct cart; cbn; ring. }
  rewrite <- E. destruct cart; reflexivity.
Qed.
