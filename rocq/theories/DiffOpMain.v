(** The differential operators act on the geometric vectors, whatever the coordinates. *)
From Coq Require Import Lia Lra FunctionalExtensionality.
From Verif Require Import TensorSpec TensorProofs TensorMulProofs TensorStaticProofs.
From Verif Require Import DiffOpModel DiffOpSpec MappingVec DiffOpProofs DiffOpCurl.
Open Scope R_scope.

Lemma flat_map_length' {A B} (f : A -> list B) l n : (forall x, In x l -> length (f x) = n) ->
  length (flat_map f l) = (length l * n)%nat.
Proof. induction l as [|a l IH]; intros H; auto. cbn. rewrite app_length, H by (left; auto). rewrite IH; auto. intros; apply H; right; auto. Qed.
Lemma flat_map_nth {A B} (f : A -> list B) n d : forall l i j x, (forall x, In x l -> length (f x) = n) ->
  (j < n)%nat -> nth_error l i = Some x -> nth (i * n + j) (flat_map f l) d = nth j (f x) d.
Proof.
  induction l as [|a l IH]; intros i j x HL Hj HE; [destruct i; discriminate|].
  cbn [flat_map]. destruct i as [|i].
  - injection HE as ->. rewrite app_nth1; auto. rewrite HL by (left; auto). lia.
  - rewrite app_nth2 by (rewrite HL by (left; auto); lia). rewrite HL by (left; auto).
    replace (S i * n + j - n)%nat with (i * n + j)%nat by lia. apply IH; auto. intros; apply HL; right; auto.
Qed.
Lemma mat_data_length n M : length (mat_data n M) = (n * n)%nat.
Proof. unfold mat_data. rewrite (flat_map_length' _ _ n), seq_length; auto. intros. rewrite map_length, seq_length; auto. Qed.
Lemma map_seq_nth' (f : nat -> R) n i : (i < n)%nat -> nth i (map f (seq 0 n)) 0 = f i.
Proof. intros H. rewrite nth_indep with (d' := f 0%nat) by (rewrite map_length, seq_length; auto). rewrite map_nth, seq_nth; auto. Qed.
Lemma mat_data_comp n M i j : (i < n)%nat -> (j < n)%nat -> comp2 n (mat_data n M) i j = M i j.
Proof.
  intros Hi Hj. unfold comp2, mat_data.
  rewrite (flat_map_nth (fun i => map (M i) (seq 0 n)) n 0 (seq 0 n) i j i); auto.
  - apply map_seq_nth'; auto.
  - intros. rewrite map_length, seq_length; auto.
  - rewrite nth_error_nth' with (d := 0%nat) by (rewrite seq_length; auto). rewrite seq_nth; auto.
Qed.

Lemma basis_length cart n : length (basis cart n) = n.
Proof. unfold basis. rewrite map_length, seq_length. reflexivity. Qed.
Lemma cov_basis_length cart n : length (cov_basis cart n) = n.
Proof. unfold cov_basis. rewrite map_length. apply basis_length. Qed.
Lemma contra_cov cart n : contra_dims (cov_basis cart n) = contra_dims (basis cart n).
Proof. unfold contra_dims, cov_basis, basis. rewrite !map_map. apply map_ext. intros a. destruct cart; reflexivity. Qed.
Lemma basis_contra cart n : is_contra_set (basis cart n) = true.
Proof. apply forallb_forall. intros t Ht. apply in_map_iff in Ht. destruct Ht as [x [<- _]]. destruct cart; reflexivity. Qed.
Lemma cov_basis_cov cart n : is_cov_set (cov_basis cart n) = true.
Proof.
  apply forallb_forall. intros t Ht. apply in_map_iff in Ht. destruct Ht as [x [<- Hx]].
  apply in_map_iff in Hx. destruct Hx as [y [<- _]]. destruct cart; reflexivity.
Qed.

(** product of a matrix by a vector in index notation *)
Lemma mat_vec_mul cart n (sw : bool) g d : length g = (n * n)%nat -> length d = n -> (0 < n)%nat ->
  let s1 := if sw then cov_basis cart n else basis cart n in let s2 := if sw then basis cart n else cov_basis cart n in
  tensor_result (let* t1 := indexed [cI; cJ] [s1; s1] g in let* t2 := indexed [cJ] [s2] d in tensor_mul [t1; t2]) =
  Ok (map (fun i => Rsum n (fun j => comp2 n g i j * comp d j)) (seq 0 n)).
Proof.
  intros Hg Hd Hn s1 s2.
  assert (L1 : length s1 = n) by (subst s1; destruct sw; [apply cov_basis_length|apply basis_length]).
  assert (L2 : length s2 = n) by (subst s2; destruct sw; [apply basis_length|apply cov_basis_length]).
  assert (P1 : proper_set s1) by (subst s1; destruct sw; [apply cov_basis_proper|apply basis_proper]).
  assert (P2 : proper_set s2) by (subst s2; destruct sw; [apply basis_proper|apply cov_basis_proper]).
  rewrite !indexed_ok by (auto; repeat constructor; cbn; intuition discriminate). cbn [bind].
  change [fst (stored [cI; cJ] [s1; s1] g); fst (stored [cJ] [s2] d)] with (map fst [stored [cI; cJ] [s1; s1] g; stored [cJ] [s2] d]).
  rewrite (tensor_mul_ok _ s1 (fun i => Rsum n (fun j => comp2 n g i j * comp d j))).
  - rewrite L1. reflexivity.
  - discriminate.
  - apply check_all_spec. intros c Hc. cbn in Hc. destruct Hc as [<-|[<-|[<-|[]]]].
    + left. reflexivity.
    + right. exists [(cI, s1)], s1, [], s2, []. split; [reflexivity|]. split; [cbn; unfold cI; intuition discriminate|].
      subst s1 s2. destruct sw; rewrite ?basis_contra, ?cov_basis_cov, ?contra_cov; auto.
    + right. exists [(cI, s1)], s1, [], s2, []. split; [reflexivity|]. split; [cbn; unfold cI; intuition discriminate|].
      subst s1 s2. destruct sw; rewrite ?basis_contra, ?cov_basis_cov, ?contra_cov; auto.
  - unfold pattern_of, stored. cbn [map concat app it_pattern fst combine]. forall_ok; auto.
  - forall_ok; try reflexivity; try apply P1; try apply P2; unfold n_elements; cbn [map fold_right]; rewrite ?L1, ?L2; lia.
  - reflexivity.
  - discriminate.
  - apply P1.
  - intros k Hk. rewrite L1 in Hk. unfold einstein. cbn -[Rsum extents layout_right]. rewrite L1.
    apply Rsum_ext. intros j Hj. cbn -[extents layout_right]. unfold comp2, comp. cbn. rewrite !L1. ring.
Qed.

Lemma gradient_value cart n m p d gi : (0 < n)%nat -> length d = n -> metric_inverse n m p = Ok gi ->
  gradient_contra cart n m p d = Ok (map (fun i => Rsum n (fun j => gi i j * comp d j)) (seq 0 n)).
Proof.
  intros Hn Hd Hm. unfold gradient_contra. rewrite Hm. cbn [bind].
  pose proof (mat_vec_mul cart n false (mat_data n gi) d (mat_data_length n gi) Hd Hn) as E. cbn [andb] in E. cbv zeta in E.
  cbv beta iota in E.
  rewrite !indexed_ok in E |- * by (auto; repeat constructor; cbn; intuition discriminate). cbn [bind] in E |- *.
  rewrite E. f_equal. apply map_ext_in. intros i Hi. apply in_seq in Hi. apply Rsum_ext. intros j Hj.
  rewrite mat_data_comp by lia. reflexivity.
Qed.

(** the physical vector of the contravariant gradient *)
Lemma gradient_physical cart n m p d u : (0 < n)%nat -> length d = n -> invertible_at n m p ->
  MappingSpec.represents n (m_J m p) ArgCov (comp d) u ->
  exists v, gradient_contra cart n m p d = Ok v /\ length v = n /\
    MappingSpec.represents n (m_J m p) ArgContra (comp v) u.
Proof.
  intros Hn Hd HI HR.
  destruct HI as [K [EK HK]].
  assert (EM : metric_inverse n m p = Ok (fun i k => Rsum n (fun j => K i j * K k j))) by (unfold metric_inverse; rewrite EK; reflexivity).
  eexists. split; [apply gradient_value; eauto|]. split; [rewrite map_length, seq_length; auto|].
  intros i Hi. destruct HK as [HKJ HJK].
  assert (KU : forall j, (j < n)%nat -> Rsum n (fun k => Rsum n (fun l => K j l * K k l) * comp d k) = Rsum n (fun l => K j l * u l)).
  { intros j Hj. transitivity (Rsum n (fun k => Rsum n (fun l => K j l * (K k l * comp d k)))).
    - apply Rsum_ext. intros k Hk. rewrite <- Rsum_scal_r. apply Rsum_ext. intros; ring.
    - rewrite Rsum_swap. apply Rsum_ext. intros l Hl. rewrite Rsum_scal. f_equal.
      transitivity (Rsum n (fun k => K k l * Rsum n (fun q => m_J m p q k * u q))).
      + apply Rsum_ext. intros k Hk. rewrite (HR k Hk). reflexivity.
      + transitivity (Rsum n (fun q => Rsum n (fun k => m_J m p q k * K k l) * u q)).
        * transitivity (Rsum n (fun k => Rsum n (fun q => m_J m p q k * K k l * u q))).
          -- apply Rsum_ext. intros k Hk. rewrite <- Rsum_scal. apply Rsum_ext. intros; ring.
          -- rewrite Rsum_swap. apply Rsum_ext. intros q Hq. rewrite Rsum_scal_r. reflexivity.
        * transitivity (Rsum n (fun q => (if (l =? q)%nat then 1 else 0) * u q)).
          -- apply Rsum_ext. intros q Hq. f_equal. rewrite Nat.eqb_sym. apply (HJK q l); auto.
          -- apply Rsum_delta; auto. }
  transitivity (Rsum n (fun j => m_J m p i j * Rsum n (fun l => K j l * u l))).
  - symmetry. pose proof (cancel n (m_J m p) K u HJK i Hi) as C. exact C.
  - apply Rsum_ext. intros j Hj. unfold comp at 1. rewrite map_seq_nth' by auto. rewrite <- KU by auto. reflexivity.
Qed.

(** ** Norm *)
Lemma dual_dual_basis cart n : map dual (cov_basis cart n) = basis cart n.
Proof. unfold cov_basis, basis. rewrite !map_map. apply map_ext. intros; destruct cart; reflexivity. Qed.
Lemma norm_gen cart n (sw : bool) g v : length g = (n * n)%nat -> length v = n ->
  norm_vec (if sw then cov_basis cart n else basis cart n) g v =
  Ok (sqrt (Rsum n (fun i => Rsum n (fun j => comp v i * comp2 n g i j * comp v j)))).
Proof.
  intros Hg Hv. set (s1 := if sw then basis cart n else cov_basis cart n).
  set (s2 := if sw then cov_basis cart n else basis cart n).
  assert (ED : map dual s2 = s1) by (subst s1 s2; destruct sw; [apply dual_dual_basis|reflexivity]).
  assert (L1 : length s1 = n) by (subst s1; destruct sw; [apply basis_length|apply cov_basis_length]).
  assert (L2 : length s2 = n) by (subst s2; destruct sw; [apply cov_basis_length|apply basis_length]).
  assert (P1 : proper_set s1) by (subst s1; destruct sw; [apply basis_proper|apply cov_basis_proper]).
  assert (P2 : proper_set s2) by (subst s2; destruct sw; [apply cov_basis_proper|apply basis_proper]).
  unfold norm_vec. rewrite ED. rewrite !indexed_ok by (auto; repeat constructor; cbn; intuition discriminate). cbn [bind].
  change [fst (stored [cI] [s2] v); fst (stored [cI; cJ] [s1; s1] g); fst (stored [cJ] [s2] v)]
    with (map fst [stored [cI] [s2] v; stored [cI; cJ] [s1; s1] g; stored [cJ] [s2] v]).
  rewrite (scalar_mul _ (Rsum n (fun i => Rsum n (fun j => comp v i * comp2 n g i j * comp v j)))); [reflexivity|..].
  - discriminate.
  - assert (V : (is_cov_set s1 = true \/ is_cov_set s2 = true) /\ (is_contra_set s1 = true \/ is_contra_set s2 = true) /\
               contra_dims s1 = contra_dims s2).
    { subst s1 s2; destruct sw; rewrite ?basis_contra, ?cov_basis_cov, ?contra_cov; auto. }
    destruct V as [V1 [V2 V3]].
    apply check_all_spec. intros c Hc. cbn in Hc. destruct Hc as [<-|[<-|[<-|[<-|[]]]]]; right.
    + exists [], s2, [], s1, [(cJ, s1); (cJ, s2)]. split; [reflexivity|]. split; [cbn; unfold cI, cJ; intuition discriminate|]. intuition.
    + exists [], s2, [], s1, [(cJ, s1); (cJ, s2)]. split; [reflexivity|]. split; [cbn; unfold cI, cJ; intuition discriminate|]. intuition.
    + exists [(cI, s2); (cI, s1)], s1, [], s2, []. split; [reflexivity|]. split; [cbn; unfold cI, cJ; intuition discriminate|]. intuition.
    + exists [(cI, s2); (cI, s1)], s1, [], s2, []. split; [reflexivity|]. split; [cbn; unfold cI, cJ; intuition discriminate|]. intuition.
  - unfold pattern_of, stored. cbn [map concat app it_pattern fst combine]. forall_ok; auto.
  - forall_ok; try reflexivity; try apply P1; try apply P2; unfold n_elements; cbn [map fold_right]; rewrite ?L1, ?L2; lia.
  - reflexivity.
  - unfold einstein. cbn -[Rsum extents layout_right]. rewrite L1, L2.
    apply Rsum_ext. intros i Hi. apply Rsum_ext. intros j Hj. cbn -[extents layout_right]. unfold comp2, comp. cbn. rewrite !L1. ring.
Qed.
Lemma quad_metric n m p v u : MappingSpec.represents n (m_J m p) ArgContra v u ->
  Rsum n (fun i => Rsum n (fun j => v i * metric n m p i j * v j)) = dot n u u.
Proof.
  intros HR. unfold dot, metric.
  transitivity (Rsum n (fun i => Rsum n (fun j => Rsum n (fun k => m_J m p k i * v i * (m_J m p k j * v j))))).
  { apply Rsum_ext. intros i Hi. apply Rsum_ext. intros j Hj. rewrite <- Rsum_scal, <- Rsum_scal_r. apply Rsum_ext. intros; ring. }
  transitivity (Rsum n (fun i => Rsum n (fun k => m_J m p k i * v i * u k))).
  { apply Rsum_ext. intros i Hi. rewrite Rsum_swap. apply Rsum_ext. intros k Hk. rewrite Rsum_scal, (HR k Hk). reflexivity. }
  rewrite Rsum_swap. apply Rsum_ext. intros k Hk. rewrite Rsum_scal_r, (HR k Hk). reflexivity.
Qed.
(** the covariant components and the inverse metric give the same norm *)
Lemma quad_metric_inverse n m p K v u : inverse_of n K (m_J m p) -> MappingSpec.represents n (m_J m p) ArgCov v u ->
  Rsum n (fun i => Rsum n (fun j => v i * Rsum n (fun k => K i k * K j k) * v j)) = dot n u u.
Proof.
  intros [HKJ HJK] HR. unfold dot.
  assert (KU : forall k, (k < n)%nat -> Rsum n (fun i => K i k * v i) = u k).
  { intros k Hk. transitivity (Rsum n (fun i => tr K k i * Rsum n (fun q => tr (m_J m p) i q * u q))).
    - apply Rsum_ext. intros i Hi. rewrite (HR i Hi). reflexivity.
    - apply cancel; auto. apply id_tr. auto. }
  transitivity (Rsum n (fun i => Rsum n (fun j => Rsum n (fun k => K i k * v i * (K j k * v j))))).
  { apply Rsum_ext. intros i Hi. apply Rsum_ext. intros j Hj. rewrite <- Rsum_scal, <- Rsum_scal_r. apply Rsum_ext. intros; ring. }
  transitivity (Rsum n (fun i => Rsum n (fun k => K i k * v i * u k))).
  { apply Rsum_ext. intros i Hi. rewrite Rsum_swap. apply Rsum_ext. intros k Hk. rewrite Rsum_scal, (KU k Hk). reflexivity. }
  rewrite Rsum_swap. apply Rsum_ext. intros k Hk. rewrite Rsum_scal_r, (KU k Hk). reflexivity.
Qed.
Lemma norm_contra cart n m p v u : length v = n -> MappingSpec.represents n (m_J m p) ArgContra (comp v) u ->
  norm_element cart true n m p v = Ok (sqrt (dot n u u)).
Proof.
  intros Hv HR. unfold norm_element. cbn [orb].
  rewrite (norm_gen cart n false) by (auto using mat_data_length). do 2 f_equal.
  rewrite <- (quad_metric n m p (comp v) u HR). apply Rsum_ext. intros i Hi. apply Rsum_ext. intros j Hj.
  rewrite mat_data_comp by auto. reflexivity.
Qed.
Lemma norm_cov n m p v u : length v = n -> invertible_at n m p -> MappingSpec.represents n (m_J m p) ArgCov (comp v) u ->
  norm_element false false n m p v = Ok (sqrt (dot n u u)).
Proof.
  intros Hv [K [EK HK]] HR. unfold norm_element, metric_inverse. rewrite EK. cbn [orb bind].
  rewrite (norm_gen false n true) by (auto using mat_data_length). do 2 f_equal.
  rewrite <- (quad_metric_inverse n m p K (comp v) u HK HR). apply Rsum_ext. intros i Hi. apply Rsum_ext. intros j Hj.
  rewrite mat_data_comp by auto. reflexivity.
Qed.

(** ** Bracket *)
Lemma dot_pos u : (exists i, (i < 3)%nat /\ u i <> 0) -> 0 < dot 3 u u.
Proof.
  intros [i [Hi Hu]]. unfold dot. cbn.
  assert (P : forall x : R, x <> 0 -> 0 < x * x) by (intros; nra).
  assert (Q : forall x : R, 0 <= x * x) by (intros; nra).
  pose proof (Q (u 0%nat)). pose proof (Q (u 1%nat)). pose proof (Q (u 2%nat)).
  assert (i = 0 \/ i = 1 \/ i = 2)%nat as [->| [->| ->]] by lia; specialize (P _ Hu); lra.
Qed.
Lemma bracket_alg (J : nat -> nat -> R) c b gF gG :
  Rsum 3 (fun i => Rsum 3 (fun j => Rsum 3 (fun k => Rsum 3 (fun l =>
    IZR (eps [i; j; k]) * c * Rsum 3 (fun q => J q i * J q l) * b l
    * Rsum 3 (fun q => J q j * gF q) * Rsum 3 (fun q => J q k * gG q))))) =
  c * determinant3 J * dot 3 (fun q => Rsum 3 (fun l => J q l * b l)) (cross gF gG).
Proof. unfold dot, cross, c3, determinant3. cbn. ring. Qed.
Lemma bracket_physical_sum cart m p df dg B gF gG uB : usable cart m p ->
  length df = 3%nat -> length dg = 3%nat -> length B = 3%nat ->
  MappingSpec.represents 3 (m_J m p) ArgCov (comp df) gF -> MappingSpec.represents 3 (m_J m p) ArgCov (comp dg) gG ->
  MappingSpec.represents 3 (m_J m p) ArgContra (comp B) uB ->
  let g := mat_data 3 (metric 3 m p) in
  bracket_sum (1 / m_jac m p) g (tensor_div B (sqrt (quad_form g B))) df dg = dot 3 uB (cross gF gG) / sqrt (dot 3 uB uB).
Proof.
  intros [HD [HJ HC]] H1 H2 H3 RF RG RB g.
  assert (EQ : quad_form g B = dot 3 uB uB).
  { rewrite <- (quad_metric 3 m p (comp B) uB RB). unfold quad_form. apply Rsum_ext. intros i Hi. apply Rsum_ext. intros j Hj.
    subst g. rewrite mat_data_comp by auto. reflexivity. }
  rewrite EQ. set (nb := sqrt (dot 3 uB uB)).
  assert (Ndet : m_jac m p <> 0).
  { intros E. rewrite E, Rabs_R0 in HJ. assert (0 < 1 / 10 ^ 19) by (apply Rdiv_lt_0_compat; [lra|apply pow_lt; lra]). lra. }
  unfold bracket_sum.
  transitivity (Rsum 3 (fun i => Rsum 3 (fun j => Rsum 3 (fun k => Rsum 3 (fun l =>
    IZR (eps [i; j; k]) * (1 / m_jac m p) * Rsum 3 (fun q => m_J m p q i * m_J m p q l) * (comp B l / nb)
    * Rsum 3 (fun q => m_J m p q j * gF q) * Rsum 3 (fun q => m_J m p q k * gG q)))))).
  { apply Rsum_ext. intros i Hi. apply Rsum_ext. intros j Hj. apply Rsum_ext. intros k Hk. apply Rsum_ext. intros l Hl.
    subst g. rewrite mat_data_comp by auto. rewrite (RF j Hj), (RG k Hk). f_equal. f_equal. f_equal.
    unfold comp, tensor_div. rewrite nth_indep with (d' := 0 / nb) by (rewrite map_length; lia).
    rewrite map_nth with (f := fun e => e / nb). reflexivity. }
  rewrite bracket_alg. cbn [det_n] in HD. rewrite <- HD. unfold Rdiv at 1. rewrite Rmult_1_l, Rinv_l, Rmult_1_l by auto.
  unfold dot at 1 2, Rdiv. rewrite <- Rsum_scal_r. apply Rsum_ext. intros q Hq. rewrite (RB q Hq).
  transitivity (Rsum 3 (fun l => m_J m p q l * comp B l) * / nb * cross gF gG q); [|ring]. f_equal.
  rewrite <- Rsum_scal_r. apply Rsum_ext. intros; ring.
Qed.
Lemma bracket_physical cart m p df dg B gF gG uB : usable cart m p ->
  length df = 3%nat -> length dg = 3%nat -> length B = 3%nat ->
  MappingSpec.represents 3 (m_J m p) ArgCov (comp df) gF -> MappingSpec.represents 3 (m_J m p) ArgCov (comp dg) gG ->
  MappingSpec.represents 3 (m_J m p) ArgContra (comp B) uB ->
  bracket cart m p df dg B = Ok (dot 3 uB (cross gF gG) / sqrt (dot 3 uB uB)).
Proof.
  intros HU H1 H2 H3 RF RG RB. destruct HU as [HD [HJ HC]] eqn:E. clear E.
  rewrite bracket_value by auto. f_equal. apply (bracket_physical_sum cart); auto.
Qed.
Lemma bracket_vec_physical cart m p sg df dg B gF (gG : nat -> nat -> R) uB : usable cart m p ->
  proper_set sg -> sg <> [] -> length df = 3%nat -> length dg = (length sg * 3)%nat -> length B = 3%nat ->
  MappingSpec.represents 3 (m_J m p) ArgCov (comp df) gF ->
  (forall k, (k < length sg)%nat -> MappingSpec.represents 3 (m_J m p) ArgCov (comp2 3 dg k) (gG k)) ->
  MappingSpec.represents 3 (m_J m p) ArgContra (comp B) uB ->
  exists v, bracket_vec cart m p sg df dg B = Ok v /\ length v = length sg /\ forall k, (k < length sg)%nat -> comp v k = dot 3 uB (cross gF (gG k)) / sqrt (dot 3 uB uB).
Proof.
  intros HU HP HN H1 H2 H3 RF RG RB. eexists. split; [apply bracket_vec_value; auto; apply HU|].
  split; [rewrite map_length, seq_length; auto|]. intros k Hk. unfold comp at 1. rewrite map_seq_nth' by auto.
  apply (bracket_physical_sum cart); auto.
  intros j Hj. rewrite <- (RG k Hk j Hj). assert (j = 0 \/ j = 1 \/ j = 2)%nat as [->| [->| ->]] by lia; reflexivity.
Qed.

(** ** Curl *)
Lemma curl_alg (J : nat -> nat -> R) (H : nat -> nat -> nat -> R) U D c df a : (a < 3)%nat ->
  (forall i j l, (i < 3)%nat -> (j < 3)%nat -> (l < 3)%nat -> H i j l = H i l j) ->
  (forall mm l, (mm < 3)%nat -> (l < 3)%nat -> comp2 3 df mm l =
     Rsum 3 (fun i => H i mm l * U i) + Rsum 3 (fun i => Rsum 3 (fun j => J i mm * D i j * J j l))) ->
  Rsum 3 (fun k => J a k * curl_sum c df k) = c * determinant3 J * cartesian_curl D a.
Proof.
  intros Ha HS HD.
  assert (S1 : forall i, (i < 3)%nat -> H i 0%nat 1%nat = H i 1%nat 0%nat) by (intros; apply HS; lia).
  assert (S2 : forall i, (i < 3)%nat -> H i 0%nat 2%nat = H i 2%nat 0%nat) by (intros; apply HS; lia).
  assert (S3 : forall i, (i < 3)%nat -> H i 1%nat 2%nat = H i 2%nat 1%nat) by (intros; apply HS; lia).
  transitivity (Rsum 3 (fun k => J a k * Rsum 3 (fun l => Rsum 3 (fun m => IZR (eps [k; l; m]) * c * 
     (Rsum 3 (fun i => H i m l * U i) + Rsum 3 (fun i => Rsum 3 (fun j => J i m * D i j * J j l))))))).
  { apply Rsum_ext. intros k Hk. f_equal. apply Rsum_ext. intros l Hl. apply Rsum_ext. intros mm Hm. rewrite HD by auto. reflexivity. }
  unfold cartesian_curl, c3, determinant3.
  assert (a = 0 \/ a = 1 \/ a = 2)%nat as [->| [->| ->]] by lia; cbn; rewrite !S1, !S2, !S3 by lia; ring.
Qed.
