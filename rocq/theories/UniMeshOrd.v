(** A uniform mesh of doubles which are too coarse for its cells: the points are still in order. *)
From Coq Require Import Lia Lra ZArith Reals List.
From Flocq Require Import Core IEEE754.BinarySingleNaN.
From Verif Require Import QuadModel QuadProofs.
From Verif Require Import UniMeshSpec FltBase EdgeFloat UniMain UniNode UniMesh.
Import ListNotations.
Open Scope R_scope.

Section Ord.
  Variables (mn mx : F64) (n : nat).
  Hypothesis E : mesh_ends mn mx n.
  Notation delta := (b64_div (f_sub mx mn) (b64 (Z.of_nat n))).
  Lemma inner_le i : (0 <= i < Z.of_nat n)%Z -> num (knot_f64 mn delta i) <= num mx.
  Proof.
    intros Hi. pose proof (grid_ok mn mx n E) as G. pose proof (h_w mn mx n E) as HW. pose proof (w_pos mn mx n E) as WP.
    pose proof (nw mn mx n E) as NW. pose proof (n_pos mn mx n E) as NP. destruct E as (E1 & E2 & E3 & _ & _ & N & _). unfold max_cells in N.
    destruct (knot_ok mn delta G i) as [K1 K2]; [lia|]. rewrite K1, <- (rnd_num mx). apply rnd_le.
    pose proof (prod_range mn delta G i ltac:(lia)) as PR. set (w := (num mx - num mn) / INR n) in *. set (h := num delta) in *.
    assert (I : 0 <= IZR i <= INR n - 1).
    { split; [apply IZR_le; lia|]. rewrite INR_IZR_INZ. replace (IZR (Z.of_nat n) - 1) with (IZR (Z.of_nat n - 1)) by (rewrite minus_IZR; reflexivity). apply IZR_le; lia. }
    assert (P : IZR i * h <= (INR n - 1) * (w * (1 + / 1000000000))) by (apply Rmult_le_compat; lra).
    assert (Q : INR n * w <= 268435456 * w) by (apply Rmult_le_compat_r; lra).
    replace ((INR n - 1) * (w * (1 + / 1000000000))) with ((INR n * w) * (1 + / 1000000000) - w * (1 + / 1000000000)) in P by ring.
    rewrite NW in P, Q. lra.
  Qed.
  Lemma inner_ge i : (0 <= i < Z.of_nat n)%Z -> num mn <= num (knot_f64 mn delta i).
  Proof.
    intros Hi. pose proof (grid_ok mn mx n E) as G. destruct E as (_ & _ & _ & _ & _ & N & _). unfold max_cells in N.
    destruct (knot_ok mn delta G i) as [K1 _]; [lia|]. rewrite K1. rewrite <- (knot_0 mn delta) at 1. apply (knot_mono mn delta G). lia.
  Qed.
  Theorem mesh_ordered : exists l, build_uniform_f64 mn mx n = Ok l /\ ordered_mesh mn mx n l.
  Proof.
    pose proof (grid_ok mn mx n E) as G. pose proof E as (E1 & E2 & E3 & _ & _ & N & _). unfold max_cells in N.
    destruct (fill_f64 mn mx n (knot_f64 mn delta)) as (l & L1 & L2 & L3 & L4 & L5); [lia|]. exists l. split; [exact L1|].
    assert (ALL : forall i y, nth_error l i = Some y -> i = 0%nat /\ y = mn \/ i = n /\ y = mx \/ (0 < i < n)%nat /\ y = knot_f64 mn delta (Z.of_nat i)).
    { intros i y Y. assert (IL : (i < n + 1)%nat) by (rewrite <- L2; apply nth_error_Some; congruence).
      destruct (Nat.eq_dec i 0) as [->|I0]; [left; split; congruence|].
      destruct (Nat.eq_dec i n) as [->|IN]; [right; left; split; congruence|].
      right; right. rewrite L5 in Y by lia. split; [lia|congruence]. }
    assert (B : forall i y, nth_error l i = Some y -> num mn <= num y <= num mx).
    { intros i y Y. apply ALL in Y. destruct Y as [[_ ->]|[[_ ->]|[I ->]]]; [lra|lra|]. split; [apply inner_ge|apply inner_le]; lia. }
    split; [|split; [exact L2|split; [exact L3|split; [exact L4|split; [exact B|]]]]].
    - apply Forall_forall. intros y Y. apply In_nth_error in Y. destruct Y as [i Y]. apply ALL in Y.
      destruct Y as [[_ ->]|[[_ ->]|[I ->]]]; [exact E1|exact E2|]. apply (knot_ok mn delta G). lia.
    - intros i j y z IJ Y Z. pose proof (B _ _ Y) as BY. pose proof (B _ _ Z) as BZ. apply ALL in Y, Z.
      destruct Y as [[-> ->]|[[-> ->]|[I ->]]]; [lra| |].
      + destruct Z as [[-> ->]|[[_ ->]|[J _]]]; [lia|lra|lia].
      + destruct Z as [[-> _]|[[_ ->]|[J ->]]]; [lia|lra|].
        destruct (knot_ok mn delta G (Z.of_nat i)) as [-> _]; [lia|]. destruct (knot_ok mn delta G (Z.of_nat j)) as [-> _]; [lia|].
        apply (knot_mono mn delta G). lia.
  Qed.
End Ord.
(** the ends of the counterexample of C135 meet the hypothesis; its points *)
Lemma ex_ordered : mesh_ends f_2_53 f_2_53_2 4 /\
  match build_uniform_f64 f_2_53 f_2_53_2 4 with
  | Ok l => length l = 5%nat /\ map (fun y => Beqb y f_2_53) l = [true; true; true; false; false] /\ map (fun y => Beqb y f_2_53_2) l = [false; false; false; true; true]
  | _ => False end.
Proof. split; [exact ends_53|]. vm_compute. repeat split; reflexivity. Qed.
