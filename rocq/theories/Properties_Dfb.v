(** C111: splines built from derivative fields. *)
From Verif Require Import DerivMain DfbSpec DfbProofs DfbMain DfbExamples.
Open Scope Z_scope.

(** When the field holds the derivatives that the builder needs and the class runs in the default
    execution space (or no mixed derivative is needed), the builder gets exactly the documented data:
    every argument is allocated on the right index range, initialised everywhere, and holds the values,
    the derivatives at the right end, the mixed derivatives at the right corner. *)
Theorem C111_arguments_partial : forall V S f h fields h' (m : store V) (D : table V) exec dflt nb
  (builder : builder_args V -> res S),
  wf_shape f -> dims f = df_dims -> nonempty f -> construct f h = (fields, h') -> stores f fields m D ->
  provides f nb -> exec = dflt \/ ~ needs_mixed nb ->
  exists g, documented D (phys f 1) (phys f 2) nb g /\
    build f fields m exec dflt builder nb = builder g.
Proof.
  intros V S f h fields h' m D exec dflt nb builder Hf Hd Hn C HS HP Hsp.
  pose proof (construct_fields _ _ _ _ C) as (HF & _).
  destruct (unpack_ok f fields m _ Hf Hd HF exec dflt D nb Hn HS HP Hsp) as (g & E & T).
  exists g. split; auto. unfold build. now rewrite E.
Qed.
Print Assumptions C111_arguments_partial.
Example C111_arguments_ex : wf_shape (ex_dfb 2) /\ dims (ex_dfb 2) = df_dims /\ nonempty (ex_dfb 2) /\
  stores (ex_dfb 2) (ex_fields 2) (ex_mem 2) ex_table /\ provides (ex_dfb 2) ex_needs /\
  match build (ex_dfb 2) (ex_fields 2) (ex_mem 2) Device Device ex_builder ex_needs with
  | Ok g => get (g_function g) 7 2 = 7 * 7 * 7 * 4 + 7 /\
            get (g_deriv1_max g) 1 1 = 3 * 64 + 1 /\ get (g_deriv1_min g) 2 2 = 30 * 4 /\
            a_1 (g_deriv1_max g) = Range 1 1 /\ a_val (g_deriv1_max g) 2 1 = None /\
            get (g_cross_max_max g) 1 2 = 3 * 64 * 2 /\ get (g_cross_min_max g) 2 1 = 30 * 4
  | _ => False
  end.
Proof.
  split; [apply ex_wf|]. split; [reflexivity|]. split; [apply ex_nonempty|]. split; [apply ex_stores|].
  split; [apply ex_provides|]. vm_compute. repeat split.
Qed.

(** A builder which interpolates its arguments yields a spline with the values and the derivatives which
    the derivative field stores, at every place where the boundary conditions prescribe them. *)
Theorem C111_interpolates : forall V S f h fields h' (m : store V) (D : table V) exec dflt nb
  (builder : builder_args V -> res S) (ev : S -> table V) s,
  wf_shape f -> dims f = df_dims -> nonempty f -> construct f h = (fields, h') -> stores f fields m D ->
  interpolating builder ev (phys f 1) (phys f 2) ->
  build f fields m exec dflt builder nb = Ok s ->
  forall k i l j, constrained (phys f 1) (phys f 2) nb k i l j -> ev s k i l j = D k i l j.
Proof. exact @spline_interpolates. Qed.
Print Assumptions C111_interpolates.
Example C111_interpolates_ex : interpolating ex_builder ex_ev (phys (ex_dfb 2) 1) (phys (ex_dfb 2) 2) /\
  constrained (phys (ex_dfb 2) 1) (phys (ex_dfb 2) 2) ex_needs 1 8 2 2 /\
  ~ constrained (phys (ex_dfb 2) 1) (phys (ex_dfb 2) 2) ex_needs 2 8 0 2 /\
  match build (ex_dfb 2) (ex_fields 2) (ex_mem 2) Host Host ex_builder ex_needs with
  | Ok s => ex_ev s 1 8 2 2 = 3 * 64 * 2
  | _ => False
  end.
Proof.
  split; [exact ex_interpolating|]. split; [|split].
  - unfold constrained, in_range, upper. cbn. lia.
  - unfold constrained, in_range, upper, lower. cbn. lia.
  - vm_compute. reflexivity.
Qed.

(** A spline is never built from missing derivatives: if the operator completes then the field provides
    all of them, and no kernel ran where it cannot access the memory. *)
Theorem C111_nothing_missing : forall V S f h fields h' (m : store V) exec dflt nb
  (builder : builder_args V -> res S) s,
  wf_shape f -> dims f = df_dims -> nonempty f -> construct f h = (fields, h') ->
  build f fields m exec dflt builder nb = Ok s ->
  provides f nb /\ (exec = dflt \/ ~ needs_mixed nb).
Proof.
  intros V S f h fields h' m exec dflt nb builder s Hf Hd Hn C E.
  pose proof (construct_fields _ _ _ _ C) as (HF & _). unfold build in E.
  destruct (unpack f fields m exec dflt nb) as [g| | |] eqn:Eu; try discriminate.
  exact (unpack_inv f fields m _ Hf Hd HF exec dflt nb g Hn Eu).
Qed.
Print Assumptions C111_nothing_missing.
Example C111_nothing_missing_ex :
  match build (ex_dfb 2) (ex_fields 2) (ex_mem 2) Host Host ex_builder (Needs 0 0 1 1) with
  | Ok _ => True | _ => False end /\
  ~ provides (ex_dfb 2) (Needs 3 0 1 1).
Proof.
  split; [vm_compute; exact I|]. intros ([E|[E _]] & _); cbn in E; lia.
Qed.

(** Finding: "Check that the DerivField contains the necessary derivatives for the builder" (line 95) is
    a comment without code: a field with too few derivatives is never reported by an exception, and it
    makes the kernels read outside the field. *)
Theorem C111_missing_derivatives_detected_refuted :
  (forall V f h fields h' (m : store V) exec dflt nb, wf_shape f -> dims f = df_dims ->
     construct f h = (fields, h') -> unpack f fields m exec dflt nb <> Throw) /\
  (exists f (m : store Z) fields h', wf_shape f /\ dims f = df_dims /\ nonempty f /\
     construct f (Heap 7 []) = (fields, h') /\ ~ provides f (Needs 2 2 0 0) /\
     unpack f fields m Host Host (Needs 2 2 0 0) = Ub).
Proof.
  split.
  - intros V f h fields h' m exec dflt nb Hf Hd C. pose proof (construct_fields _ _ _ _ C) as (HF & _).
    exact (unpack_no_throw f fields m _ Hf Hd HF exec dflt nb).
  - exists (ex_dfb 1), (fun _ _ => 0), (ex_fields 1), (snd (construct (ex_dfb 1) (Heap 7 []))).
    split; [apply ex_wf|]. split; [reflexivity|]. split; [apply ex_nonempty|]. split; [reflexivity|].
    split; [|vm_compute; reflexivity]. intros ([E|[E _]] & _); cbn in E; lia.
Qed.
Print Assumptions C111_missing_derivatives_detected_refuted.

(** Finding: fill_in_cross_deriv does not pass the execution space to parallel_for_each (285-287): a
    builder on the host in a build whose default execution space is a device (or conversely) runs the
    kernel of the mixed derivatives where the memory is not accessible, although the field provides
    everything; without mixed derivatives the same class works. *)
Theorem C111_any_execution_space_refuted :
  (forall V f h fields h' (m : store V) exec dflt nb, wf_shape f -> dims f = df_dims -> nonempty f ->
     construct f h = (fields, h') -> exec <> dflt -> needs_mixed nb ->
     ~ exists g, unpack f fields m exec dflt nb = Ok g) /\
  provides (ex_dfb 2) (Needs 2 1 1 2) /\
  unpack (ex_dfb 2) (ex_fields 2) (ex_mem 2) Host Device (Needs 2 1 1 2) = Ub /\
  match unpack (ex_dfb 2) (ex_fields 2) (ex_mem 2) Host Device (Needs 2 1 0 0) with
  | Ok _ => True | _ => False end.
Proof.
  split; [|split; [|split]].
  - intros V f h fields h' m exec dflt nb Hf Hd Hn C Hne Hm (g & E).
    pose proof (construct_fields _ _ _ _ C) as (HF & _).
    destruct (unpack_inv f fields m _ Hf Hd HF exec dflt nb g Hn E) as [_ [?|?]]; tauto.
  - unfold provides, end_known, lower, upper, in_slice. cbn. repeat split; right; (split; [lia|]).
    + exists 0%nat. cbn. lia.
    + exists 1%nat. cbn. lia.
    + exists 0%nat. cbn. lia.
    + exists 1%nat. cbn. lia.
  - vm_compute. reflexivity.
  - vm_compute. exact I.
Qed.
Print Assumptions C111_any_execution_space_refuted.

(** Whatever the data, the memory of a derivative field can hold it (the hypothesis [stores] of the
    theorems above can be met for every table). *)
Theorem C111_any_data : forall V f h fields h' (D : table V) (d0 : V), wf_shape f -> dims f = df_dims ->
  construct f h = (fields, h') -> exists m : store V, stores f fields m D.
Proof.
  intros V f h fields h' D d0 Hf Hd C. exists (holding f fields D d0).
  exact (holding_stores f h fields h' D d0 Hf Hd C).
Qed.
Print Assumptions C111_any_data.
Example C111_any_data_ex : ex_table 1 8 2 2 <> ex_table 0 8 2 2 /\ ex_mem 2 7%nat 0 = 0 + 5.
Proof. split; [vm_compute; discriminate|vm_compute; reflexivity]. Qed.
