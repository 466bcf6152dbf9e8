(** C12, C13: MPI layouts and the all-to-all transpose. *)
From Verif Require Import MpiTransposeProofs.
From Coq Require Import Permutation.
Open Scope nat_scope.

(** ** C12 *)
(** [g]: global index range (distinct dimensions), [distr]: the distributed dimensions, P ranks.
    If P divides the number of points of the distributed dimensions then every rank gets a
    local range (no exception, no failed assertion); the local ranges partition the global
    one, have the same dimensions, the same sizes on all ranks (a P-th of the global size) and
    contain the non-distributed dimensions completely. *)
Theorem C12_layout_partition : forall distr g P, NoDup (dims g) -> NoDup distr -> incl distr (dims g) ->
  0 < P -> Nat.divide P (distributed_size distr g) ->
  exists local : nat -> idx_range,
    (forall r, r < P -> distribute_idx_range distr g P r = Ok (local r)) /\
    partitions P local g /\
    (forall r, r < P -> dims (local r) = dims g /\ range_size (local r) * P = range_size g /\
       (forall r', r' < P -> map (fun x => snd (snd x)) (local r) = map (fun x => snd (snd x)) (local r')) /\
       (forall d f n, In (d, (f, n)) g -> ~ In d distr -> In (d, (f, n)) (local r))).
Proof. exact mpi_layout_partition. Qed.
Print Assumptions C12_layout_partition.

(** Otherwise an exception is raised on every rank. *)
Theorem C12_indivisible_throws : forall distr g P r, 0 < P -> ~ Nat.divide P (distributed_size distr g) ->
  distribute_idx_range distr g P r = Throw.
Proof. exact distribute_throw. Qed.
Print Assumptions C12_indivisible_throws.

(** 2 x 6 x 5 points, the first two dimensions distributed over 4 ranks *)
Definition g265 : idx_range := [(7, ((-3)%Z, 2)); (8, (0%Z, 6)); (9, (4%Z, 5))].
Example C12_example : NoDup (dims g265) /\ NoDup [7; 8] /\ incl [7; 8] (dims g265) /\
  Nat.divide 4 (distributed_size [7; 8] g265) /\
  distribute_idx_range [7; 8] g265 4 3 = Ok [(7, ((-2)%Z, 1)); (8, (3%Z, 3)); (9, (4%Z, 5))].
Proof.
  repeat split; try (simpl; repeat constructor; simpl; intuition congruence).
  - intros x Hx; simpl in *; intuition.
  - exists 3; reflexivity.
Qed.

(** ** C13 *)
(** [holds_field P local bufs F]: the buffers of the P ranks hold the global field F distributed
    as the local ranges say.  The transposition, in either direction, produces buffers that hold
    the same field in the other layout. *)
Theorem C13_transpose_moves_every_element :
  forall A (uninit : A) (forward : bool) g L1 L2 P local1 local2 send recv F,
  compatible g L1 L2 P -> layout_ranges g L1 P local1 -> layout_ranges g L2 P local2 ->
  let lin := if forward then local1 else local2 in
  let lout := if forward then local2 else local1 in
  holds_field P lin send F ->
  length recv = P -> (forall r b, r < P -> nth_error recv r = Some b -> length b = range_size (lout r)) ->
  exists out, transpose_world uninit forward L1 L2 g P send recv = Ok out /\ holds_field P lout out F.
Proof. exact transpose_correct. Qed.
Print Assumptions C13_transpose_moves_every_element.

Theorem C13_round_trip :
  forall A (uninit : A) (forward : bool) g L1 L2 P local1 local2 send recv1 recv2,
  compatible g L1 L2 P -> layout_ranges g L1 P local1 -> layout_ranges g L2 P local2 ->
  let lin := if forward then local1 else local2 in
  let lout := if forward then local2 else local1 in
  length send = P -> (forall r b, r < P -> nth_error send r = Some b -> length b = range_size (lin r)) ->
  length recv1 = P -> (forall r b, r < P -> nth_error recv1 r = Some b -> length b = range_size (lout r)) ->
  length recv2 = P -> (forall r b, r < P -> nth_error recv2 r = Some b -> length b = range_size (lin r)) ->
  (let* mid := transpose_world uninit forward L1 L2 g P send recv1 in
   transpose_world uninit (negb forward) L1 L2 g P mid recv2) = Ok send.
Proof. exact transpose_roundtrip. Qed.
Print Assumptions C13_round_trip.

Theorem C13_indivisible_throws : forall L1 L2 g P r, 0 < P -> good_layout g L1 ->
  ~ Nat.divide P (distributed_size (l_distr L1) g) -> construct L1 L2 g P r = Throw.
Proof. exact construct_throws. Qed.
Print Assumptions C13_indivisible_throws.

(** the layouts of tests/mpi_parallelisation/alltoall.cpp 82-89 (W=0, X=1, Y=2, Z=3) *)
Definition WXYZ_XY := {| l_order := [0; 1; 2; 3]; l_distr := [1; 2] |}.
Definition YZWX_WZ := {| l_order := [2; 3; 0; 1]; l_distr := [0; 3] |}.
Definition YZWX_ZW := {| l_order := [2; 3; 0; 1]; l_distr := [3; 0] |}.
Definition g4 (n : nat) : idx_range := [(0, (0%Z, n)); (1, (0%Z, n)); (2, (0%Z, n)); (3, (0%Z, n))].

Example C13_example : compatible (g4 10) WXYZ_XY YZWX_ZW 4 /\ ~ good_layout (g4 10) YZWX_WZ.
Proof.
  split.
  - split; [|split; [|split; [|split; [|split; [|split; [|split]]]]]].
    + split; [|split]; [simpl; repeat constructor; simpl; intuition congruence| |reflexivity].
      intros x Hx; simpl in *; intuition.
    + split; [|split]; [simpl; repeat constructor; simpl; intuition congruence| |reflexivity].
      intros x Hx; simpl in *; intuition.
    + simpl. apply (Permutation_app_comm [0; 1] [2; 3]).
    + simpl. intuition congruence.
    + lia.
    + exists 25; reflexivity.
    + exists 25; reflexivity.
    + simpl. intros d Hd. repeat (destruct Hd as [<-|Hd]; [simpl; lia|]). tauto.
  - intros (_ & _ & H). discriminate H.
Qed.

(** Finding: when the distributed dimensions are not listed in the order of the data -- as in the
    repository's own test layout <YZWX; W, Z> -- the operator succeeds but sends blocks to the wrong
    ranks as soon as two distributed dimensions are really split (4 ranks; the test uses 2).
    The layout is otherwise well formed and no check rejects it. *)
Definition F4 (i : nat -> Z) : Z := (8 * i 0%nat + 4 * i 1%nat + 2 * i 2%nat + i 3%nat)%Z.
Definition send4 : list (list Z) := [[0; 1; 8; 9]; [2; 3; 10; 11]; [4; 5; 12; 13]; [6; 7; 14; 15]]%Z.
Theorem C13_distributed_order_refuted : exists g L1 L2 P send recv out idx b l2,
  P = 4 /\ L1 = WXYZ_XY /\ L2 = YZWX_WZ /\ g = g4 2 /\
  transpose_world 0%Z true L1 L2 g P send recv = Ok out /\
  (forall r l b, r < P -> distribute_idx_range (l_distr L1) (sub_range (l_order L1) g) P r = Ok l ->
     nth_error send r = Some b ->
     forall i0 i1 i2 i3, let i := fun d => match d with 0 => i0 | 1 => i1 | 2 => i2 | _ => i3 end in
       in_range i l -> field_at l b i = Ok (F4 i)) /\
  distribute_idx_range (l_distr L2) (sub_range (l_order L2) g) P 1 = Ok l2 /\
  nth_error out 1 = Some b /\ in_range idx l2 /\ field_at l2 b idx <> Ok (F4 idx).
Proof.
  exists (g4 2), WXYZ_XY, YZWX_WZ, 4, send4, (repeat (repeat 0%Z 4) 4).
  eexists. exists (fun d => match d with 0 => 1%Z | _ => 0%Z end). eexists. eexists.
  split; [reflexivity|]. split; [reflexivity|]. split; [reflexivity|]. split; [reflexivity|].
  split; [vm_compute; reflexivity|].
  split.
  { intros r l b Hr Hl Hb i0 i1 i2 i3 i Hi.
    assert (Hcases : r = 0 \/ r = 1 \/ r = 2 \/ r = 3) by lia.
    destruct Hcases as [->|[->|[->| ->]]]; vm_compute in Hl; injection Hl as <-; vm_compute in Hb; injection Hb as <-;
      pose proof (Hi 0 _ _ ltac:(simpl; eauto)) as B0;
      pose proof (Hi 1 _ _ ltac:(simpl; eauto)) as B1;
      pose proof (Hi 2 _ _ ltac:(simpl; eauto)) as B2;
      pose proof (Hi 3 _ _ ltac:(simpl; eauto)) as B3;
      simpl in B0, B1, B2, B3; unfold i;
      assert (C0 : i0 = 0%Z \/ i0 = 1%Z) by lia; assert (C1 : i1 = 0%Z \/ i1 = 1%Z) by lia;
      assert (C2 : i2 = 0%Z \/ i2 = 1%Z) by lia; assert (C3 : i3 = 0%Z \/ i3 = 1%Z) by lia;
      destruct C0, C1, C2, C3; subst; try lia; vm_compute; reflexivity. }
  split; [vm_compute; reflexivity|].
  split; [vm_compute; reflexivity|].
  split.
  { intros d f n Hi. simpl in Hi.
    repeat (destruct Hi as [Hi|Hi]; [injection Hi as <- <- <-; simpl; lia|]). tauto. }
  vm_compute. discriminate.
Qed.
Print Assumptions C13_distributed_order_refuted.
