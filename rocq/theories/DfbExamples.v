(** Concrete cases for C111: a 4 x 3 grid, derivatives known at the ends, and a builder. *)
From Coq Require Import ZifyBool.
From Verif Require Import DfbSpec.
From Verif Require Export DfbMain.
Open Scope Z_scope.

(** indices 5..8 and 0..2; derivatives up to order 2 at 5 and 8, at 0 and 2 *)
Definition ex_dfb (n : nat) : shape :=
  Shape df_dims (fun d => if Nat.eqb d 1 then Range 5 4 else Range 0 3)
    (fun d => if Nat.eqb d 1 then Slice 5 2 3 else Slice 0 2 2) n.
Definition ex_fields (n : nat) : list view := fst (construct (ex_dfb n) (Heap 7 [])).

(** the derivatives of x^3 y^2 + x at the points x = i, y = j *)
Definition ex_table : table Z := fun k i l j =>
  let dx := match k with 0 => i * i * i | 1 => 3 * i * i | _ => 6 * i end in
  let dy := match l with 0 => j * j | 1 => 2 * j | _ => 2 end in
  dx * dy + (if Z.eqb l 0 then (match k with 0 => i | 1 => 1 | _ => 0 end) else 0).
Definition ex_mem (n : nat) : store Z := holding (ex_dfb n) (ex_fields n) ex_table 0.

Lemma ex_wf n : wf_shape (ex_dfb n).
Proof.
  split.
  - cbn. unfold df_dims. repeat constructor; cbn; intuition discriminate.
  - intros d _. cbn. destruct (Nat.eqb d 1); cbn; lia.
Qed.
Lemma ex_nonempty n : nonempty (ex_dfb n).
Proof. unfold nonempty. cbn. lia. Qed.
Lemma ex_stores n : stores (ex_dfb n) (ex_fields n) (ex_mem n) ex_table.
Proof.
  apply (holding_stores (ex_dfb n) (Heap 7 []) _ (snd (construct (ex_dfb n) (Heap 7 [])))); [apply ex_wf|reflexivity|].
  unfold ex_fields. now destruct (construct (ex_dfb n) (Heap 7 [])).
Qed.

Definition ex_needs : needs := Needs 2 1 0 2.
Lemma ex_provides : provides (ex_dfb 2) ex_needs.
Proof.
  unfold provides, end_known. cbn. unfold lower, upper, in_slice. cbn. repeat split.
  - right. split; auto. exists 0%nat. cbn. lia.
  - right. split; auto. exists 1%nat. cbn. lia.
  - now left.
  - right. split; auto. exists 1%nat. cbn. lia.
Qed.

(** a "builder" whose splines are their data *)
Definition get (a : arr Z) (i j : Z) : Z := match a_val a i j with Some v => v | None => 0 end.
Definition ex_builder (g : builder_args Z) : res (builder_args Z) :=
  if (r_front (a_1 (g_deriv1_min g)) =? 1) && (r_front (a_1 (g_deriv1_max g)) =? 1) &&
     (r_front (a_2 (g_deriv2_min g)) =? 1) && (r_front (a_2 (g_deriv2_max g)) =? 1) &&
     (r_front (a_1 (g_cross_min_min g)) =? 1) && (r_front (a_2 (g_cross_min_min g)) =? 1) &&
     (r_front (a_1 (g_cross_max_min g)) =? 1) && (r_front (a_2 (g_cross_max_min g)) =? 1) &&
     (r_front (a_1 (g_cross_min_max g)) =? 1) && (r_front (a_2 (g_cross_min_max g)) =? 1) &&
     (r_front (a_1 (g_cross_max_max g)) =? 1) && (r_front (a_2 (g_cross_max_max g)) =? 1)
  then Ok g else Throw.
Definition ex_ev (g : builder_args Z) : table Z := fun k i l j =>
  if k =? 0 then
    if l =? 0 then get (g_function g) i j
    else if j =? 0 then get (g_deriv2_min g) i l else get (g_deriv2_max g) i l
  else if l =? 0 then
    if i =? 5 then get (g_deriv1_min g) k j else get (g_deriv1_max g) k j
  else if i =? 5 then
    if j =? 0 then get (g_cross_min_min g) k l else get (g_cross_min_max g) k l
  else if j =? 0 then get (g_cross_max_min g) k l else get (g_cross_max_max g) k l.

Lemma ex_interpolating : interpolating ex_builder ex_ev (Range 5 4) (Range 0 3).
Proof.
  intros g s E. unfold ex_builder in E.
  match type of E with (if ?b then _ else _) = _ => destruct b eqn:Eb; [|discriminate] end. injection E as <-.
  unfold ex_ev, get, lower, upper, in_range. cbn [r_front r_ext].
  repeat match goal with |- _ /\ _ => split end; intros k l v.
  1: intros _ _ ->; reflexivity.
  all: intros E1 H1 H2; repeat match goal with |- context [?a =? ?b] =>
         first [replace (a =? b) with true by lia | replace (a =? b) with false by lia] end;
       cbv iota; rewrite E1; reflexivity.
Qed.
