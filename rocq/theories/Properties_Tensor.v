(** C19, C20, C21, C45: tensors, index notation and Levi-Civita tensors. *)
From Verif Require Import TensorModel TensorSpec TensorProofs TensorMulProofs TensorStaticProofs.
From Coq Require Import Lra Lia.
Open Scope nat_scope.

(** C19: the flat position of an element and the enumeration of the elements are mutually inverse;
    the positions are exactly 0 .. size-1. *)
Theorem C19_numbering_is_a_bijection : forall sets, Forall (@NoDup tag) sets ->
  (forall dims, indexes sets dims ->
     element_index sets dims < n_elements sets /\ get_nth_element (element_index sets dims) sets = dims) /\
  (forall n, n < n_elements sets ->
     indexes sets (get_nth_element n sets) /\ element_index sets (get_nth_element n sets) = n).
Proof. exact numbering. Qed.
Print Assumptions C19_numbering_is_a_bijection.

(** C19: writing an element succeeds, changes that element and no other. *)
Theorem C19_element_access : forall sets data dims x,
  length data = n_elements sets -> indexes sets dims ->
  exists data', tensor_set sets data dims x = Ok data' /\ length data' = n_elements sets /\
    tensor_get sets data' dims = Ok x /\
    forall d', indexes sets d' -> d' <> dims -> tensor_get sets data' d' = tensor_get sets data d'.
Proof. exact tensor_set_get. Qed.
Print Assumptions C19_element_access.

(** C19: the storage is row-major over the positions of the tags. *)
Theorem C19_row_major : forall sets data, Forall (@NoDup tag) sets -> length data = n_elements sets ->
  represents sets (tensor_get sets data) (fun pos => nth (layout_right (extents sets) pos) data 0%R).
Proof. exact stored_represents. Qed.
Print Assumptions C19_row_major.

(** a 2 x 3 tensor with mixed variance *)
Definition ex_sets : list index_set := [[Contra 0; Contra 1]; [Cov 3; Cov 4; Cov 5]].
Lemma ex_sets_nodup : Forall (@NoDup tag) ex_sets.
Proof. repeat constructor; simpl; intuition discriminate. Qed.
Example C19_nonvacuous : Forall (@NoDup tag) ex_sets /\ n_elements ex_sets = 6 /\
  indexes ex_sets [Contra 1; Cov 4] /\ element_index ex_sets [Contra 1; Cov 4] = 4 /\
  get_nth_element 4 ex_sets = [Contra 1; Cov 4].
Proof. split; [exact ex_sets_nodup|]. split; [reflexivity|]. split; [simpl; tauto|]. split; reflexivity. Qed.

(** C20: a product whose indices are all repeated is the scalar given by the Einstein sum. *)
Theorem C20_scalar_product : forall fs, fs <> [] ->
  index_rules (pattern_of fs) -> Forall (fun m => proper_set (snd m)) (pattern_of fs) ->
  Forall factor_ok fs -> free_letters (pattern_of fs) = [] ->
  tensor_mul (map fst fs) = Ok (inl (einstein fs [])).
Proof. exact tensor_mul_scalar_spec. Qed.
Print Assumptions C20_scalar_product.

(** C20: otherwise the product is a tensor over the index sets of the non-repeated letters in their
    order of appearance, and its components are the Einstein sums. *)
Theorem C20_tensor_product : forall fs, fs <> [] ->
  index_rules (pattern_of fs) -> Forall (fun m => proper_set (snd m)) (pattern_of fs) ->
  Forall factor_ok fs -> free_letters (pattern_of fs) <> [] ->
  exists data, tensor_mul (map fst fs) = Ok (inr data) /\
    length data = n_elements (free_sets (pattern_of fs)) /\
    represents (free_sets (pattern_of fs)) (tensor_get (free_sets (pattern_of fs)) data) (einstein fs).
Proof. exact tensor_mul_tensor_spec. Qed.
Print Assumptions C20_tensor_product.

(** C20: an expression that breaks the index rules is rejected. *)
Theorem C20_bad_expressions_rejected : forall ts,
  ~ index_rules (all_indices ts) -> tensor_mul ts = AssertFail.
Proof. exact tensor_mul_rejects. Qed.
Print Assumptions C20_bad_expressions_rejected.

(** C_{ik} = A_{ij} B^j_k in two dimensions: letters i=0, j=1, k=2 *)
Definition cov2 : index_set := [Cov 0; Cov 1].
Definition con2 : index_set := [Contra 0; Contra 1].
Definition entries (data : list R) (pos : list nat) : R := nth (layout_right [2; 2] pos) data 0%R.
Definition exA (data : list R) : factor :=
  ({| it_pattern := [(0, cov2); (1, cov2)]; it_get := tensor_get [cov2; cov2] data |}, entries data).
Definition exB (data : list R) : factor :=
  ({| it_pattern := [(1, con2); (2, cov2)]; it_get := tensor_get [con2; cov2] data |}, entries data).
Lemma nodup_cov2 : NoDup cov2. Proof. repeat constructor; simpl; intuition discriminate. Qed.
Lemma nodup_con2 : NoDup con2. Proof. repeat constructor; simpl; intuition discriminate. Qed.
Lemma proper_cov2 : proper_set cov2.
Proof. split; [apply nodup_cov2|left]. simpl. intuition (subst; reflexivity). Qed.
Lemma proper_con2 : proper_set con2.
Proof. split; [apply nodup_con2|right]. simpl. intuition (subst; reflexivity). Qed.

Example C20_nonvacuous : forall a b c d e f g h : R,
  exists data, tensor_mul (map fst [exA [a; b; c; d]; exB [e; f; g; h]]) = Ok (inr data) /\
    tensor_get [cov2; cov2] data [Cov 0; Cov 0] = Ok (a * e + b * g)%R /\
    tensor_get [cov2; cov2] data [Cov 0; Cov 1] = Ok (a * f + b * h)%R /\
    tensor_get [cov2; cov2] data [Cov 1; Cov 0] = Ok (c * e + d * g)%R.
Proof.
  intros. destruct (C20_tensor_product [exA [a; b; c; d]; exB [e; f; g; h]]) as [data [E [_ H]]].
  - discriminate.
  - intros x Hx. simpl in Hx.
    destruct Hx as [<-|[<-|[<-|[<-|[]]]]].
    + left. reflexivity.
    + right. exists [(0, cov2)], cov2, [], con2, [(2, cov2)]. split; [reflexivity|].
      split; [simpl; lia|]. split; [left; reflexivity|]. split; [right; reflexivity|reflexivity].
    + right. exists [(0, cov2)], cov2, [], con2, [(2, cov2)]. split; [reflexivity|].
      split; [simpl; lia|]. split; [left; reflexivity|]. split; [right; reflexivity|reflexivity].
    + left. reflexivity.
  - constructor; [exact proper_cov2|]. constructor; [exact proper_cov2|].
    constructor; [exact proper_con2|]. constructor; [exact proper_cov2|]. constructor.
  - constructor; [|constructor; [|constructor]]; unfold factor_ok.
    + apply (stored_represents [cov2; cov2]); [|reflexivity]. repeat (constructor; auto using nodup_cov2).
    + apply (stored_represents [con2; cov2]); [|reflexivity].
      constructor; [exact nodup_con2|]. constructor; [exact nodup_cov2|constructor].
  - discriminate.
  - exists data. split; [exact E|].
    change (free_sets (pattern_of [exA [a; b; c; d]; exB [e; f; g; h]])) with [cov2; cov2] in H.
    split; [|split].
    + change [Cov 0; Cov 0] with (tags_at [cov2; cov2] [0; 0]).
      rewrite (H [0; 0]) by (simpl; lia). f_equal. cbn. ring.
    + change [Cov 0; Cov 1] with (tags_at [cov2; cov2] [0; 1]).
      rewrite (H [0; 1]) by (simpl; lia). f_equal. cbn. ring.
    + change [Cov 1; Cov 0] with (tags_at [cov2; cov2] [1; 0]).
      rewrite (H [1; 0]) by (simpl; lia). f_equal. cbn. ring.
Qed.
(** the indexed tensors are those built by index<'i', 'j'>(A) and index<'j', 'k'>(B) *)
Example C20_index_nonvacuous : forall data,
  index_tensor [0; 1] [cov2; cov2] (tensor_get [cov2; cov2] data) = Ok (fst (exA data)) /\
  index_tensor [1; 2] [con2; cov2] (tensor_get [con2; cov2] data) = Ok (fst (exB data)).
Proof. intros. split; reflexivity. Qed.
(** A_{ij} B_{jk} is rejected: two covariant indices *)
Example C20_rejection_nonvacuous : forall data,
  ~ index_rules (all_indices [fst (exA data); {| it_pattern := [(1, cov2); (2, cov2)]; it_get := tensor_get [cov2; cov2] data |}]).
Proof.
  intros data H. apply check_all_spec in H. discriminate.
Qed.

(** C21: the components of the Levi-Civita tensors are the Levi-Civita symbol (sign of the
    permutation by its inversions, 0 when an index repeats) times the coefficient. *)
Theorem C21_levi_civita_components : forall s coeff, NoDup s ->
  represents (repeat s (length s)) (levi_civita_get s coeff) (fun pos => IZR (eps pos) * coeff)%R.
Proof. exact levi_civita_spec. Qed.
Print Assumptions C21_levi_civita_components.

(** C21: swapping any two indices changes the sign. *)
Theorem C21_transposition : forall a x b y c,
  eps (a ++ x :: b ++ y :: c) = (- eps (a ++ y :: b ++ x :: c))%Z.
Proof. exact eps_transpose. Qed.
Print Assumptions C21_transposition.

(** C21: contracting the symbol with the rows of any matrix is the determinant. *)
Theorem C21_determinant : forall n M,
  tuples_sum n n (fun q => IZR (eps q) * prod_rows M q)%R = laplace n M.
Proof. exact leibniz. Qed.
Print Assumptions C21_determinant.

(** C21: the parity computed on tags is defined for every element, is 1, -1 or 0, and is 0 exactly
    when an index repeats. *)
Theorem C21_parity_total : forall s dims, NoDup s -> indexes (repeat s (length s)) dims ->
  exists e, permutation_parity tag_dec dims s = Some e /\ (e = 1 \/ e = 0 \/ e = -1)%Z /\
    (e = 0%Z <-> ~ NoDup dims).
Proof. exact parity_rejects_nothing. Qed.
Print Assumptions C21_parity_total.

(** C21: the coefficients of the covariant and contravariant tensors are the Jacobian and its inverse. *)
Theorem C21_coefficients : forall s cs J, Forall2 (fun t u => u = dual t) s cs ->
  is_cov_set s = true -> is_cov_set cs = false -> (1 / 10 ^ 19 <= Rabs J)%R ->
  exists a b, levi_civita_coeff s J = Ok a /\ levi_civita_coeff cs J = Ok b /\ a = J /\ (a * b = 1)%R.
Proof. exact levi_coeffs. Qed.
Print Assumptions C21_coefficients.

(** C21: the identity tensor is the Kronecker delta of the positions. *)
Theorem C21_identity : forall row col, NoDup row -> NoDup col ->
  represents [row; col] (identity_get row col)
    (fun pos => match pos with [i; j] => if i =? j then 1%R else 0%R | _ => 0%R end).
Proof. exact identity_spec. Qed.
Print Assumptions C21_identity.

Definition xyz : index_set := [Cart 0; Cart 1; Cart 2].
Example C21_nonvacuous :
  NoDup xyz /\
  levi_civita_get xyz 2 [Cart 1; Cart 0; Cart 2] = Ok (-1 * 2)%R /\
  levi_civita_get xyz 2 [Cart 1; Cart 2; Cart 0] = Ok (1 * 2)%R /\
  levi_civita_get xyz 2 [Cart 1; Cart 1; Cart 0] = Ok (0 * 2)%R.
Proof.
  assert (H : NoDup xyz) by (repeat constructor; simpl; intuition discriminate).
  split; [exact H|]. split; [|split]; reflexivity.
Qed.

(** C45: assigning a smaller tensor copies its elements and leaves the others unchanged. *)
Theorem C45_assign_from_smaller : forall osets isets out input,
  Forall (@NoDup tag) isets -> sub_sets isets osets -> n_elements isets < n_elements osets ->
  length input = n_elements isets -> length out = n_elements osets ->
  exists out', assign_elements osets isets out input = Ok out' /\ length out' = n_elements osets /\
    (forall dims, indexes isets dims -> tensor_get osets out' dims = tensor_get isets input dims) /\
    (forall dims, indexes osets dims -> ~ indexes isets dims -> tensor_get osets out' dims = tensor_get osets out dims).
Proof. exact assign_smaller. Qed.
Print Assumptions C45_assign_from_smaller.

(** C45: assigning a tensor at least as large fills every element with the element of the same tags. *)
Theorem C45_assign_from_larger : forall osets isets out input,
  Forall (@NoDup tag) osets -> sub_sets osets isets -> n_elements osets <= n_elements isets ->
  length input = n_elements isets -> length out = n_elements osets ->
  exists out', assign_elements osets isets out input = Ok out' /\ length out' = n_elements osets /\
    (forall dims, indexes osets dims -> tensor_get osets out' dims = tensor_get isets input dims).
Proof. exact assign_larger. Qed.
Print Assumptions C45_assign_from_larger.

(** a 2-vector into a 3-vector whose tags are in another order *)
Example C45_nonvacuous : exists out', assign_elements [[Cart 0; Cart 1; Cart 2]] [[Cart 2; Cart 0]] [1; 2; 3]%R [7; 8]%R = Ok out' /\
  tensor_get [[Cart 0; Cart 1; Cart 2]] out' [Cart 0] = Ok 8%R /\
  tensor_get [[Cart 0; Cart 1; Cart 2]] out' [Cart 2] = Ok 7%R /\
  tensor_get [[Cart 0; Cart 1; Cart 2]] out' [Cart 1] = Ok 2%R.
Proof.
  destruct (C45_assign_from_smaller [[Cart 0; Cart 1; Cart 2]] [[Cart 2; Cart 0]] [1; 2; 3]%R [7; 8]%R)
    as [o [E [_ [H1 H2]]]]; try (cbn; lia).
  - repeat constructor; simpl; intuition discriminate.
  - simpl. split; auto. intros x [<-|[<-|[]]]; simpl; tauto.
  - exists o. split; auto. split; [|split].
    + rewrite H1 by (simpl; tauto). reflexivity.
    + rewrite H1 by (simpl; tauto). reflexivity.
    + rewrite H2; [reflexivity|simpl; tauto|simpl; intuition discriminate].
Qed.
