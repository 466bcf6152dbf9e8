(** A function of the finite element space which vanishes at the quadrature points is zero. *)
From Coq Require Import ZifyBool.
From Verif Require Import Lib LagDerivSpec DerivModel QuadModel FemModel FemSolve MappingModel MappingSpec PspModel PspSpec PspBasis PspProofs PspMain PspTheorems PspJac PspEval PspExamples PpfModel PpfSpec PpfRows PpfPattern PpfCsr PpfBasis PpfMain PpfSolve PpfIndep.
Open Scope R_scope.

(** the degree + 1 points of a cell are different *)
Lemma cell_points (l : list R) g c : NoDup l -> (c * g + g <= length l)%nat -> NoDup (map (fun k => nth (c * g + k) l 0) (seq 0 g)).
Proof.
  intros HN HL. apply (NoDup_nth _ 0). intros i j. rewrite map_length, seq_length. intros Hi Hj.
  set (F := fun k => nth (c * g + k) l 0). rewrite !(nth_indep (map F (seq 0 g)) 0 (F 0%nat)) by (rewrite map_length, seq_length; lia). rewrite !map_nth, !seq_nth by lia. unfold F. rewrite !Nat.add_0_l.
  intros E. pose proof (proj1 (NoDup_nth l 0) HN (c * g + i)%nat (c * g + j)%nat ltac:(lia) ltac:(lia) E). lia.
Qed.
Lemma NoDup_app_l {A} (l1 l2 : list A) : NoDup (l1 ++ l2) -> NoDup l1.
Proof.
  induction l1 as [|a l1 IH]; intros H; [constructor|]. inversion H as [|? ? Ha Hl]; subst. constructor; [|apply IH, Hl]. intros I. apply Ha. apply in_or_app. now left.
Qed.
Lemma nth_unique n : forall f g h, nth_derivative n f g -> nth_derivative n f h -> forall x, g x = h x.
Proof.
  intros f g h [F [F0 [FS FN]]] [G [G0 [GS GN]]] x. rewrite <- FN, <- GN.
  assert (E : forall k, (k <= n)%nat -> forall y, F k y = G k y); [|apply E; lia].
  induction k as [|k IH]; intros Hk y; [rewrite F0, G0; reflexivity|].
  apply (uniqueness_limite (F k) y); [apply FS; lia|]. intros e He. destruct (GS k y ltac:(lia) e He) as [dl Hd]. exists dl. intros t H1 H2. rewrite !IH by lia. exact (Hd t H1 H2).
Qed.
Section Definite.
  Variables (p : pfem) (tr tt : nat -> R) (m : dmap) (x0 y0 : R).
  Hypothesis FS : fem_setup p tr tt m x0 y0.
  Hypotheses (DR : NoDup (pf_qr p)) (DT : NoDup (pf_qt p)).
  Variable V : nat -> nat -> nat -> R.
  Hypothesis HV : holds (pf_c1 p) (b_size (pf_t p)) (pf_el p) V.
  Variable x : list R.
  Hypothesis HL : length x = n_interior p.
  Let HS := fe_sizes p tr tt m x0 y0 FS.
  Let PS := fe_polar p tr tt m x0 y0 FS.
  Let SR := ps_r _ _ _ _ _ _ _ _ PS.
  Let ST := ps_t _ _ _ _ _ _ _ _ PS.
  Notation X := (expand (pf_c1 p) (b_cells (pf_t p)) V (dirichlet p x)).
  Lemma space_apart b t c : bspline_space b t -> (c < b_cells b)%nat -> apart t (b_deg b + c) (b_deg b).
  Proof.
    intros SB Hc. split; [lia|]. split; [intros i j H; apply (bs_mono b t SB); lia|]. exact (bs_breaks b t SB c Hc).
  Qed.
  (** the coefficients of the first radial derivative or of the function, in a cell *)
  Lemma value_at n a b k l : (n <= 1)%nat -> at_points p (fun r th => derivative (pf_c1 p) (pf_r p) (pf_t p) (pf_el p) (dirichlet p x) n 0 r th = Ok 0) ->
    (a < b_cells (pf_r p))%nat -> (b < b_cells (pf_t p))%nat -> (k <= b_deg (pf_r p))%nat -> (l <= b_deg (pf_t p))%nat ->
    Rsum (b_deg (pf_r p) + 1) (fun i => Rsum (b_deg (pf_t p) + 1) (fun j => X (a + i)%nat (b + j)%nat * cdb tt (b_deg (pf_t p) + b) (b_deg (pf_t p)) j (nth (b * (b_deg (pf_t p) + 1) + l) (pf_qt p) 0))
      * dcdb tr (b_deg (pf_r p) + a) (b_deg (pf_r p)) i n (nth (a * (b_deg (pf_r p) + 1) + k) (pf_qr p) 0)) = 0.
  Proof.
    intros Hn HZ Ha Hb Hk Hl. set (r := nth (a * (b_deg (pf_r p) + 1) + k) (pf_qr p) 0). set (th := nth (b * (b_deg (pf_t p) + 1) + l) (pf_qt p) 0).
    pose proof (fe_in_r p tr tt m x0 y0 FS a k Ha Hk) as IR. fold r in IR. pose proof (fe_in_t p tr tt m x0 y0 FS b l Hb Hl) as IT. fold th in IT.
    assert (IN : forall bb t c y, bspline_space bb t -> (c < b_cells bb)%nat -> t (b_deg bb + c)%nat < y < t (b_deg bb + c + 1)%nat -> b_rmin bb <= y <= b_rmax bb).
    { clear. intros bb t c y SB Hc Hy. rewrite <- (bs_first _ _ SB), <- (bs_last _ _ SB).
      pose proof (bs_mono _ _ SB (b_deg bb) (b_deg bb + c)%nat ltac:(lia)). pose proof (bs_mono _ _ SB (b_deg bb + c + 1)%nat (b_deg bb + b_cells bb)%nat ltac:(lia)). lra. }
    destruct (basis_at (pf_r p) tr n r SR (IN _ _ _ _ SR Ha IR)) as [c [v [E [BV Hc]]]]. destruct (basis_at (pf_t p) tt 0 th ST (IN _ _ _ _ ST Hb IT)) as [ct [vt [Et [BVt Hct]]]].
    assert (c = a) as -> by exact (cell_unique _ _ n r a c v SR Ha IR BV). assert (ct = b) as -> by exact (cell_unique _ _ 0 th b ct vt ST Hb IT BVt).
    assert (Hr : In r (pf_qr p)). { apply nth_In. rewrite (fe_len_r p tr tt m x0 y0 FS). pose proof (Nat.mul_le_mono_r (a + 1) (b_cells (pf_r p)) (b_deg (pf_r p) + 1) ltac:(lia)). lia. }
    assert (Ht : In th (pf_qt p)). { apply nth_In. rewrite (fe_len_t p tr tt m x0 y0 FS). pose proof (Nat.mul_le_mono_r (b + 1) (b_cells (pf_t p)) (b_deg (pf_t p) + 1) ltac:(lia)). lia. }
    pose proof (HZ r th Hr Ht) as Z. cbv beta in Z.
    unfold derivative in Z. pose proof (fs_radial p HS) as HRAD. destruct (dirichlet_ok p tr tt m x0 y0 FS x HL) as [D1 _].
    rewrite (eval_no_bc_ok _ _ _ _ V _ n 0 _ _ a v b vt HV E Et Hc Hct) in Z; [|exact (c1_le p tr tt m x0 y0 FS)|exact (ps_deg _ _ _ _ _ _ _ _ PS)|lia|exact D1].
    assert (Z' : tensor_spline (pf_r p) (pf_t p) X (a, v) (b, vt) = 0) by congruence. clear Z. unfold tensor_spline in Z'. cbn [fst snd] in Z'.
    etransitivity; [|exact Z']. apply Rsum_ext. intros i Hi. rewrite <- Rsum_scal_r. apply Rsum_ext. intros j Hj.
    rewrite (basis_value_0 _ _ _ _ _ j BVt ltac:(lia)). destruct BV as [_ [_ BV]]. destruct (BV i ltac:(lia)) as [g [Dg ->]].
    rewrite (nth_unique n _ _ _ Dg (dcdb_nth tr (b_deg (pf_r p) + a) (b_deg (pf_r p)) i n)). ring.
  Qed.
  (** the combination of the radial functions vanishes for each poloidal index *)
  Lemma radial_zero n a b k j : (n <= 1)%nat -> at_points p (fun r th => derivative (pf_c1 p) (pf_r p) (pf_t p) (pf_el p) (dirichlet p x) n 0 r th = Ok 0) ->
    (a < b_cells (pf_r p))%nat -> (b < b_cells (pf_t p))%nat -> (k <= b_deg (pf_r p))%nat -> (j <= b_deg (pf_t p))%nat ->
    Rsum (b_deg (pf_r p) + 1) (fun i => X (a + i)%nat (b + j)%nat * dcdb tr (b_deg (pf_r p) + a) (b_deg (pf_r p)) i n (nth (a * (b_deg (pf_r p) + 1) + k) (pf_qr p) 0)) = 0.
  Proof.
    intros Hn HZ Ha Hb Hk Hj.
    apply (cdb_independent tt (b_deg (pf_t p) + b) (b_deg (pf_t p)) (map (fun l => nth (b * (b_deg (pf_t p) + 1) + l) (pf_qt p) 0) (seq 0 (b_deg (pf_t p) + 1))) (space_apart _ _ _ ST Hb))
      with (c := fun j => Rsum (b_deg (pf_r p) + 1) (fun i => X (a + i)%nat (b + j)%nat * dcdb tr (b_deg (pf_r p) + a) (b_deg (pf_r p)) i n (nth (a * (b_deg (pf_r p) + 1) + k) (pf_qr p) 0))); [| | |exact Hj].
    - apply cell_points; [exact DT|]. rewrite (fe_len_t p tr tt m x0 y0 FS). pose proof (Nat.mul_le_mono_r (b + 1) (b_cells (pf_t p)) (b_deg (pf_t p) + 1) ltac:(lia)). lia.
    - rewrite map_length, seq_length. reflexivity.
    - intros th Hth. apply in_map_iff in Hth. destruct Hth as [l [<- Hl]]. apply in_seq in Hl.
      etransitivity; [|exact (value_at n a b k l Hn HZ Ha Hb Hk ltac:(lia))].
      rewrite (Rsum_ext (b_deg (pf_t p) + 1) _ (fun j => Rsum (b_deg (pf_r p) + 1) (fun i => X (a + i)%nat (b + j)%nat * cdb tt (b_deg (pf_t p) + b) (b_deg (pf_t p)) j (nth (b * (b_deg (pf_t p) + 1) + l) (pf_qt p) 0) * dcdb tr (b_deg (pf_r p) + a) (b_deg (pf_r p)) i n (nth (a * (b_deg (pf_r p) + 1) + k) (pf_qr p) 0)))).
      + rewrite Rsum_swap. apply Rsum_ext. intros i' _. rewrite <- Rsum_scal_r. reflexivity.
      + intros j' _. rewrite <- Rsum_scal_r. apply Rsum_ext. intros i' _. ring.
  Qed.
  Lemma radial_points a : (a < b_cells (pf_r p))%nat -> NoDup (map (fun k => nth (a * (b_deg (pf_r p) + 1) + k) (pf_qr p) 0) (seq 0 (b_deg (pf_r p) + 1))).
  Proof.
    intros Ha. apply cell_points; [exact DR|]. rewrite (fe_len_r p tr tt m x0 y0 FS). pose proof (Nat.mul_le_mono_r (a + 1) (b_cells (pf_r p)) (b_deg (pf_r p) + 1) ltac:(lia)). lia.
  Qed.
  Lemma expand_zero a b i j : at_points p (fun r th => derivative (pf_c1 p) (pf_r p) (pf_t p) (pf_el p) (dirichlet p x) 0 0 r th = Ok 0) ->
    (a < b_cells (pf_r p))%nat -> (b < b_cells (pf_t p))%nat -> (i <= b_deg (pf_r p))%nat -> (j <= b_deg (pf_t p))%nat -> X (a + i)%nat (b + j)%nat = 0.
  Proof.
    intros HZ Ha Hb Hi Hj.
    apply (cdb_independent tr (b_deg (pf_r p) + a) (b_deg (pf_r p)) _ (space_apart _ _ _ SR Ha) (radial_points a Ha)) with (c := fun i => X (a + i)%nat (b + j)%nat); [| |exact Hi].
    - rewrite map_length, seq_length. reflexivity.
    - intros r Hr. apply in_map_iff in Hr. destruct Hr as [k [<- Hk]]. apply in_seq in Hk. etransitivity; [|exact (radial_zero 0 a b k j ltac:(lia) HZ Ha Hb ltac:(lia) Hj)].
      apply Rsum_ext. intros i' _. rewrite dcdb_0. reflexivity.
  Qed.
  (** the coefficients do not depend on the radial index if the radial derivative is 0 *)
  Lemma expand_step a b i j : at_points p (fun r th => derivative (pf_c1 p) (pf_r p) (pf_t p) (pf_el p) (dirichlet p x) 1 0 r th = Ok 0) ->
    (a < b_cells (pf_r p))%nat -> (b < b_cells (pf_t p))%nat -> (i < b_deg (pf_r p))%nat -> (j <= b_deg (pf_t p))%nat -> X (a + i)%nat (b + j)%nat = X (a + S i)%nat (b + j)%nat.
  Proof.
    intros HZ Ha Hb Hi Hj. destruct (b_deg (pf_r p)) as [|q] eqn:ED; [lia|]. rewrite <- ED in *.
    pose proof (space_apart _ _ _ SR Ha) as AP.
    assert (D : delta tr (b_deg (pf_r p) + a) (fun i => X (a + i)%nat (b + j)%nat) q i = 0).
    { apply (cdb_independent tr (b_deg (pf_r p) + a) q (firstn (q + 1) (map (fun k => nth (a * (b_deg (pf_r p) + 1) + k) (pf_qr p) 0) (seq 0 (b_deg (pf_r p) + 1)))) (apart_pred _ _ _ (eq_ind _ _ AP _ ED)))
        with (c := delta tr (b_deg (pf_r p) + a) (fun i => X (a + i)%nat (b + j)%nat) q); [| | |lia].
      - pose proof (radial_points a Ha) as ND. rewrite <- (firstn_skipn (q + 1)) in ND. exact (NoDup_app_l _ _ ND).
      - rewrite firstn_length, map_length, seq_length. lia.
      - intros r Hr. assert (Hr' : In r (map (fun k => nth (a * (b_deg (pf_r p) + 1) + k) (pf_qr p) 0) (seq 0 (b_deg (pf_r p) + 1)))) by (rewrite <- (firstn_skipn (q + 1)); apply in_or_app; now left).
        apply in_map_iff in Hr'. destruct Hr' as [k [<- Hk]]. apply in_seq in Hk.
        pose proof (radial_zero 1 a b k j ltac:(lia) HZ Ha Hb ltac:(lia) Hj) as Z. rewrite (spline_slope _ _ _ AP (fun i => X (a + i)%nat (b + j)%nat)) in Z. replace (b_deg (pf_r p) - 1)%nat with q in Z by lia. replace (q + 1)%nat with (b_deg (pf_r p)) by lia.
        apply Rmult_integral in Z. destruct Z as [Z|Z]; [rewrite ED, S_INR in Z; pose proof (pos_INR q); lra|exact Z]. }
    unfold delta, cdb_slope in D. pose proof (apart_pos _ _ (b_deg (pf_r p)) (S i) AP ltac:(lia)) as P. rewrite ED in P at 3. pose proof (Rinv_0_lt_compat _ P). apply Rmult_integral in D. destruct D as [D|D]; lra.
  Qed.
  (** the last radial function has the coefficient 0 *)
  Lemma expand_last j : X (nbasis_r (pf_r p) - 1)%nat j = 0.
  Proof.
    pose proof (fs_radial p HS) as HRAD. pose proof (H_nt p HS) as HNT. unfold expand. replace (nbasis_r (pf_r p) - 1 <? pf_c1 p)%nat with false by (unfold nbasis_r; lia).
    destruct (dirichlet_ok p tr tt m x0 y0 FS x HL) as [D1 [D2 _]]. apply D2. rewrite D1. unfold polar_nbasis. fold (pf_ns p). change (nbasis_t (pf_t p)) with (pf_nt p). change (b_cells (pf_t p)) with (pf_nt p).
    pose proof (Nat.mod_upper_bound j (pf_nt p) ltac:(lia)). replace (nbasis_r (pf_r p) - 1 - pf_c1 p)%nat with (pf_nr p) by (unfold pf_nr; lia).
    replace (nbasis_r (pf_r p) - pf_c1 p)%nat with (S (pf_nr p)) by (unfold pf_nr, nbasis_r; lia). unfold pf_ns. cbn [Nat.mul]. lia.
  Qed.
  Definition vanishes (n : nat) : Prop := at_points p (fun r th => derivative (pf_c1 p) (pf_r p) (pf_t p) (pf_el p) (dirichlet p x) n 0 r th = Ok 0).
  Hypothesis HD : (1 <= b_deg (pf_r p))%nat.
  Hypothesis HZ : vanishes 0 \/ vanishes 1.
  Lemma all_expand i j : (i < nbasis_r (pf_r p))%nat -> (j < b_size (pf_t p))%nat -> X i j = 0.
  Proof.
    intros Hi Hj. pose proof (bs_cells _ _ SR) as C1. pose proof (bs_cells _ _ ST) as C2. destruct HZ as [Z|Z].
    - unfold nbasis_r, b_size in *.
      replace i with (Nat.min i (b_cells (pf_r p) - 1) + (i - Nat.min i (b_cells (pf_r p) - 1)))%nat by lia. replace j with (Nat.min j (b_cells (pf_t p) - 1) + (j - Nat.min j (b_cells (pf_t p) - 1)))%nat by lia.
      apply expand_zero; [exact Z|lia|lia|lia|lia].
    - assert (ST1 : forall i, (S i < nbasis_r (pf_r p))%nat -> X i j = X (S i) j).
      { intros i' Hi'. unfold nbasis_r, b_size in *. set (a := Nat.min i' (b_cells (pf_r p) - 1)). set (b := Nat.min j (b_cells (pf_t p) - 1)).
        replace j with (b + (j - b))%nat by lia. replace (S i') with (a + S (i' - a))%nat by lia. replace i' with (a + (i' - a))%nat at 1 by lia. apply expand_step; [exact Z|lia|lia|lia|lia]. }
      assert (G : forall k, (k < nbasis_r (pf_r p))%nat -> X (nbasis_r (pf_r p) - 1 - k)%nat j = 0).
      { induction k as [|k IH]; intros Hk; [rewrite Nat.sub_0_r; apply expand_last|]. rewrite ST1 by lia. replace (S (nbasis_r (pf_r p) - 1 - S k)) with (nbasis_r (pf_r p) - 1 - k)%nat by lia. apply IH. lia. }
      replace i with (nbasis_r (pf_r p) - 1 - (nbasis_r (pf_r p) - 1 - i))%nat by lia. apply G. lia.
  Qed.
  Lemma tensor_zero q it : (q < pf_nr p)%nat -> (it < pf_nt p)%nat -> nth (pf_ns p + q * pf_nt p + it) x 0 = 0.
  Proof.
    intros Hq Hi. pose proof (fs_radial p HS) as HRAD. pose proof (all_expand (pf_c1 p + q) it ltac:(unfold pf_nr in Hq; lia) ltac:(unfold b_size; change (b_cells (pf_t p)) with (pf_nt p); lia)) as E.
    unfold expand in E. replace (pf_c1 p + q <? pf_c1 p)%nat with false in E by lia. replace (pf_c1 p + q - pf_c1 p)%nat with q in E by lia. change (b_cells (pf_t p)) with (pf_nt p) in E.
    rewrite Nat.mod_small in E by exact Hi. fold (pf_ns p) in E. destruct (dirichlet_ok p tr tt m x0 y0 FS x HL) as [_ [_ D3]]. rewrite D3 in E; [exact E|].
    pose proof (Nat.mul_le_mono_r (q + 1) (pf_nr p) (pf_nt p) ltac:(lia)). lia.
  Qed.
  Lemma sing_zero i j : (i < pf_c1 p)%nat -> (j < b_size (pf_t p))%nat -> Rsum (pf_ns p) (fun k => nth k x 0 * V k i j) = 0.
  Proof.
    intros Hi Hj. pose proof (fs_radial p HS) as HRAD. pose proof (all_expand i j ltac:(unfold nbasis_r; lia) Hj) as E.
    unfold expand in E. replace (i <? pf_c1 p)%nat with true in E by lia. fold (pf_ns p) in E. etransitivity; [|exact E]. apply Rsum_ext. intros k Hk.
    destruct (dirichlet_ok p tr tt m x0 y0 FS x HL) as [_ [_ D3]]. rewrite D3 by lia. reflexivity.
  Qed.
End Definite.
Theorem definite_theorem p tr tt m x0 y0 : fem_setup p tr tt m x0 y0 -> (1 <= b_deg (pf_r p))%nat -> NoDup (pf_qr p) -> NoDup (pf_qt p) ->
  (pf_c1 p = 2%nat -> row1_spans (pf_t p) m x0 y0) -> forall mp x u ux uy, fem_function p mp x u ux uy ->
  (at_points p (fun r th => u r th = 0) \/ at_points p (fun r th => ux r th = 0 /\ uy r th = 0)) ->
  forall i, nth i x 0 = 0.
Proof.
  intros FS HD DR DT HSP mp x u ux uy [HL HU HG] HZ i.
  assert (HZ' : vanishes p x 0 \/ vanishes p x 1).
  { destruct HZ as [HZ|HZ]; [left|right]; intros r th Hr Ht; [rewrite (HU r th Hr Ht), (HZ r th Hr Ht); reflexivity|].
    destruct (HG r th Hr Ht) as [dr [dt [-> [_ [-> _]]]]]. destruct (HZ r th Hr Ht) as [-> ->]. f_equal. ring. }
  assert (i < n_interior p \/ n_interior p <= i)%nat as [Hi|Hi] by lia; [|apply nth_overflow; lia].
  assert (pf_ns p <= i \/ i < pf_ns p)%nat as [HT|HT] by lia.
  - destruct (elements_hold p tr tt m x0 y0 FS) as [V HV]. pose proof (H_nt p (fe_sizes p tr tt m x0 y0 FS)) as HNT.
    destruct (split_index p (fe_sizes p tr tt m x0 y0 FS) i HT Hi) as [q [it [Hq [Hit ->]]]]. exact (tensor_zero p tr tt m x0 y0 FS DR DT V HV x HL HD HZ' q it Hq Hit).
  - pose proof (fe_polar p tr tt m x0 y0 FS) as PS. pose proof PS as [SR CL ST Hd M D R0 HC1 R1].
    assert (pf_c1 p = 0 \/ 1 <= pf_c1 p)%nat as [Z|P] by lia. { exfalso. revert HT. unfold pf_ns. rewrite Z. exact (Nat.nlt_0_r i). }
    destruct (polar_make_ok (pf_c1 p) (pf_r p) (pf_t p) m x0 y0 M D ltac:(lia) (bs_cells _ _ ST) (setup_o_point _ _ _ _ _ _ _ _ PS)) as [e' [He' HV]]. cbv zeta in HV.
    pose proof (fe_elements p tr tt m x0 y0 FS). assert (e' = pf_el p) as -> by congruence.
    pose proof (fun i j => sing_zero p tr tt m x0 y0 FS DR DT _ HV x HL HD HZ' i j) as SZ.
    set (tau := triangle_size (x0, y0) (row1 (pf_t p) m)) in *.
    assert (pf_c1 p = 1 \/ pf_c1 p = 2)%nat as [C|C] by lia.
    + assert (NS : pf_ns p = 1%nat) by (unfold pf_ns; rewrite C; reflexivity). assert (i = 0%nat) as -> by lia.
      specialize (SZ 0%nat 0%nat ltac:(lia) ltac:(pose proof (bs_cells _ _ ST); unfold b_size; lia)). rewrite NS, C in SZ. cbn [Rsum] in SZ. rewrite sing_elem_1 in SZ. lra.
    + assert (NS : pf_ns p = 3%nat) by (unfold pf_ns; rewrite C; reflexivity).
      destruct (HSP C) as [j1 [j2 [H1 [H2 DET]]]]. destruct (R1 C) as [j0 [Hj0 NE]].
      assert (TP : 0 < tau). { apply (triangle_size_pos (x0, y0) _ (ctrl (pf_t p) m 1 j0)); auto. unfold row1. apply in_map. apply in_seq. lia. }
      destruct (affine_through x0 y0 tau (fun k => nth (2 - k) x 0) ltac:(lra)) as [a [b [c [HC HA]]]].
      assert (AF : forall i j, (i < 2)%nat -> (j < b_size (pf_t p))%nat -> affine a b c (ctrl_x (pf_t p) m i j) (ctrl_y (pf_t p) m i j) = 0).
      { intros i' j' Hi' Hj'. rewrite <- HA. specialize (SZ i' j' ltac:(lia) Hj'). rewrite NS, C in SZ. cbn [Rsum] in SZ |- *. rewrite !sing_elem_2 in SZ by lia. unfold ctrl in SZ. cbn [fst snd Nat.sub] in SZ |- *. lra. }
      pose proof (AF 0%nat j1 ltac:(lia) H1) as A0. pose proof (AF 1%nat j1 ltac:(lia) H1) as A1. pose proof (AF 1%nat j2 ltac:(lia) H2) as A2.
      destruct (R0 j1 H1) as [RX RY]. rewrite RX, RY in A0. unfold affine in A0, A1, A2.
      set (px := ctrl_x (pf_t p) m 1 j1) in *. set (py := ctrl_y (pf_t p) m 1 j1) in *. set (qx := ctrl_x (pf_t p) m 1 j2) in *. set (qy := ctrl_y (pf_t p) m 1 j2) in *.
      assert (B1 : b * (px - x0) + c * (py - y0) = 0) by lra. assert (B2 : b * (qx - x0) + c * (qy - y0) = 0) by lra.
      assert (BZ : b * ((px - x0) * (qy - y0) - (qx - x0) * (py - y0)) = 0).
      { transitivity ((b * (px - x0) + c * (py - y0)) * (qy - y0) - (b * (qx - x0) + c * (qy - y0)) * (py - y0)); [ring|]. rewrite B1, B2. ring. }
      assert (CZ : c * ((px - x0) * (qy - y0) - (qx - x0) * (py - y0)) = 0).
      { transitivity ((b * (qx - x0) + c * (qy - y0)) * (px - x0) - (b * (px - x0) + c * (py - y0)) * (qx - x0)); [ring|]. rewrite B1, B2. ring. }
      apply Rmult_integral in BZ. apply Rmult_integral in CZ. destruct BZ as [BZ|BZ]; [|contradiction]. destruct CZ as [CZ|CZ]; [|contradiction].
      assert (AZ : a = 0) by (rewrite BZ, CZ in A0; lra).
      pose proof (HC (2 - i)%nat ltac:(lia)) as E. unfold affine in E. rewrite AZ, BZ, CZ in E. replace (2 - (2 - i))%nat with i in E by lia. lra.
Qed.
