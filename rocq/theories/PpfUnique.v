(** The matrix is positive definite; the discrete problem has exactly one solution. *)
From Coq Require Import ZifyBool.
From Verif Require Import Lib LagDerivSpec DerivModel QuadModel FemModel FemSolve MappingModel MappingSpec MatrixModel MatrixSpec MatrixOracle PspModel PspSpec PspBasis PspProofs PspMain PspTheorems PpfModel PpfSpec PpfRows PpfPattern PpfCsr PpfBasis PpfRhs PpfMain PpfSolve PpfDefinite.
Open Scope R_scope.

Section Unique.
  Variables (p : pfem) (tr tt : nat -> R) (m : dmap) (x0 y0 : R).
  Hypothesis FS : fem_setup p tr tt m x0 y0.
  Hypothesis HD : distinct_points p.
  Hypothesis HSP : pf_c1 p = 2%nat -> row1_spans (pf_t p) m x0 y0.
  Variables (q : equation) (al be : R -> R -> R) (s : pstate).
  Hypothesis FE : fem_equation p q al be.
  Hypothesis PR : reached p (Some q) s.
  Hypothesis EL : elliptic p al be.
  Lemma posdef x u ux uy : fem_function p (eq_map q) x u ux uy -> 0 <= csr_form (n_interior p) s x x /\ (csr_form (n_interior p) s x x = 0 -> forall i, nth i x 0 = 0).
  Proof.
    intros FX. destruct EL as [W [A C]]. destruct HD as [H1 [H2 H3]].
    destruct (positive_theorem p tr tt m x0 y0 FS q al be s x u ux uy FE PR FX (fun w Hw => Rlt_le _ _ (W w Hw)) A) as [P1 P2]. split; [exact P1|]. intros Z.
    specialize (P2 W Z). apply (definite_theorem p tr tt m x0 y0 FS H1 H2 H3 HSP (eq_map q) x u ux uy FX).
    destruct C as [C|C]; [right|left]; intros r th Hr Ht; destruct (P2 r th Hr Ht) as [Q1 Q2]; [exact (Q1 (C r th Hr Ht))|exact (Q2 (C r th Hr Ht))].
  Qed.
  Notation n := (n_interior p).
  Notation A := (csr_element (st_nnz s) (st_cols s) (st_vals s)).
  Lemma regular_matrix : regular n A.
  Proof.
    intros v HV i Hi. set (x := map v (seq 0 n)).
    assert (NX : forall k, (k < n)%nat -> nth k x 0 = v k). { intros k Hk. unfold x. rewrite (nth_indep _ 0 (v 0%nat)) by (rewrite map_length, seq_length; exact Hk). rewrite map_nth, seq_nth by exact Hk. reflexivity. }
    destruct (function_theorem p tr tt m x0 y0 FS q al be x FE ltac:(unfold x; rewrite map_length, seq_length; reflexivity)) as [u [ux [uy FX]]].
    destruct (posdef x u ux uy FX) as [_ Z]. rewrite <- (NX i Hi). apply Z. unfold csr_form. apply Rsum_zero. intros a Ha.
    rewrite (Rsum_ext n _ (fun j => nth a x 0 * (A a j * v j))); [|intros j Hj; rewrite (NX j Hj); ring]. rewrite Rsum_scal.
    rewrite (HV a Ha). ring.
  Qed.
  Lemma form_minus y x x' z : length z = n -> (forall i, nth i z 0 = nth i x 0 - nth i x' 0) -> csr_form n s y z = csr_form n s y x - csr_form n s y x'.
  Proof.
    intros _ HZ. unfold csr_form. rewrite <- Rsum_minus. apply Rsum_ext. intros i _. rewrite <- Rsum_minus. apply Rsum_ext. intros j _. rewrite HZ. ring.
  Qed.
  Notation solves := (discrete_solution p (eq_map q) al be).
  Lemma one_solution f : exists x, length x = n /\ solves f x /\ forall x', length x' = n -> solves f x' -> x' = x.
  Proof.
    destruct (elements_hold p tr tt m x0 y0 FS) as [V HV].
    set (g := gauss n A (load p V f)). set (x := map g (seq 0 n)).
    assert (LX : length x = n) by (unfold x; rewrite map_length, seq_length; reflexivity).
    assert (NX : forall k, (k < n)%nat -> nth k x 0 = g k). { intros k Hk. unfold x. rewrite (nth_indep _ 0 (g 0%nat)) by (rewrite map_length, seq_length; exact Hk). rewrite map_nth, seq_nth by exact Hk. reflexivity. }
    exists x. split; [exact LX|]. assert (SX : solves f x).
    { intros u ux uy y v vx vy FX FY. rewrite <- (form_theorem p tr tt m x0 y0 FS q al be s x u ux uy y v vx vy FE PR FX FY).
      rewrite <- (load_eq p tr tt m x0 y0 V y v f q FS HV vx vy FY). unfold csr_form. apply Rsum_ext. intros i Hi.
      rewrite (Rsum_ext n _ (fun j => nth i y 0 * (A i j * g j))); [|intros j Hj; rewrite (NX j Hj); ring]. rewrite Rsum_scal. f_equal. exact (gauss_spec n A regular_matrix (load p V f) i Hi). }
    split; [exact SX|]. intros x' LX' SX'.
    set (zz := map (fun i => nth i x' 0 - nth i x 0) (seq 0 n)). assert (LZ : length zz = n) by (unfold zz; rewrite map_length, seq_length; reflexivity).
    assert (NZ : forall i, nth i zz 0 = nth i x' 0 - nth i x 0).
    { intros i. assert (i < n \/ n <= i)%nat as [Hi|Hi] by lia.
      - unfold zz. rewrite (nth_indep _ 0 ((fun i => nth i x' 0 - nth i x 0) 0%nat)) by (rewrite map_length, seq_length; exact Hi). rewrite (map_nth (fun i => nth i x' 0 - nth i x 0)), seq_nth by exact Hi. reflexivity.
      - rewrite !nth_overflow by lia. ring. }
    destruct (function_theorem p tr tt m x0 y0 FS q al be zz FE LZ) as [uz [uzx [uzy FZ]]].
    destruct (function_theorem p tr tt m x0 y0 FS q al be x FE LX) as [u [ux [uy FX]]].
    destruct (function_theorem p tr tt m x0 y0 FS q al be x' FE LX') as [u' [ux' [uy' FX']]].
    destruct (posdef zz uz uzx uzy FZ) as [_ Z].
    assert (E0 : csr_form n s zz zz = 0).
    { rewrite (form_minus zz x' x zz LZ NZ).
      rewrite (form_theorem p tr tt m x0 y0 FS q al be s x u ux uy zz uz uzx uzy FE PR FX FZ), (form_theorem p tr tt m x0 y0 FS q al be s x' u' ux' uy' zz uz uzx uzy FE PR FX' FZ).
      rewrite (SX _ _ _ _ _ _ _ FX FZ), (SX' _ _ _ _ _ _ _ FX' FZ). ring. }
    apply (nth_ext _ _ 0 0); [congruence|]. intros i _. pose proof (Z E0 i) as ZI. rewrite NZ in ZI. lra.
  Qed.
End Unique.
