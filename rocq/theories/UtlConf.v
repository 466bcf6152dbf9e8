(** Proofs about the configuration. *)
From Coq Require Import String Ascii.
From Verif Require Export UtlSpec.
Open Scope Z_scope.

Lemma read_as_cases {A} (dec : yaml -> string -> option A) t p :
  (exists x s, read_as dec t p = Ok x /\ y_node (t_file t) (t_path t ++ p) = Some s /\ dec (t_file t) s = Some x) \/
  (read_as dec t p = Throw /\ ~ exists x s, y_node (t_file t) (t_path t ++ p) = Some s /\ dec (t_file t) s = Some x).
Proof.
  unfold read_as, pcpp_get. cbn [t_path]. destruct (y_node (t_file t) (t_path t ++ p)) as [s|] eqn:E.
  - destruct (dec (t_file t) s) as [x|] eqn:F.
    + left. exists x, s. auto.
    + right. split; [reflexivity|]. intros [x [s' [G H]]]. congruence.
  - right. split; [reflexivity|]. intros [x [s' [G H]]]. congruence.
Qed.
Lemma double_cases t p :
  (exists x, pcpp_double t p = Ok x /\ entry_double t p x) \/ (pcpp_double t p = Throw /\ ~ exists x, entry_double t p x).
Proof.
  destruct (read_as_cases y_double t p) as [[x [s [E [F G]]]]|[E F]].
  - left. exists x. split; [exact E|]. exists s. auto.
  - right. split; [exact E|]. intros [x [s G]]. apply F. exists x, s. exact G.
Qed.
Lemma int_cases t p :
  (exists x, pcpp_int t p = Ok x /\ entry_int t p x) \/ (pcpp_int t p = Throw /\ ~ exists x, entry_int t p x).
Proof.
  destruct (read_as_cases y_int t p) as [[x [s [E [F G]]]]|[E F]].
  - left. exists x. split; [exact E|]. exists s. auto.
  - right. split; [exact E|]. intros [x [s G]]. apply F. exists x, s. exact G.
Qed.
Lemma double_fun t p x y : entry_double t p x -> entry_double t p y -> x = y.
Proof. intros [s [E F]] [s' [E' F']]. congruence. Qed.
Lemma int_fun t p x y : entry_int t p x -> entry_int t p y -> x = y.
Proof. intros [s [E F]] [s' [E' F']]. congruence. Qed.
Lemma int_ok t p x : entry_int t p x -> pcpp_int t p = Ok x.
Proof.
  intros H. destruct (int_cases t p) as [[y [E F]]|[E F]].
  - now rewrite (int_fun t p x y H F).
  - exfalso. apply F. now exists x.
Qed.
Lemma double_ok t p x : entry_double t p x -> pcpp_double t p = Ok x.
Proof.
  intros H. destruct (double_cases t p) as [[y [E F]]|[E F]].
  - now rewrite (double_fun t p x y H F).
  - exfalso. apply F. now exists x.
Qed.
Lemma entry_path t i name x : entry_double (species_info t i) [Name name] x <-> entry_double t (parameter i name) x.
Proof.
  unfold entry_double, species_info, pcpp_get, parameter. cbn [t_file t_path]. rewrite <- app_assoc. reflexivity.
Qed.
Lemma entry_int_path t i name x : entry_int (species_info t i) [Name name] x <-> entry_int t (parameter i name) x.
Proof.
  unfold entry_int, species_info, pcpp_get, parameter. cbn [t_file t_path]. rewrite <- app_assoc. reflexivity.
Qed.

(** ** The loop on the species *)
Lemma for_species_inv {St} (body : Z -> St -> res St) front size (inv : nat -> St -> Prop) (bad : nat -> Prop) :
  (forall k st, (k < size)%nat -> inv k st ->
     match body (front + Z.of_nat k) st with Ok st' => inv (Datatypes.S k) st' | Throw => bad k | _ => False end) ->
  forall n k st, (k + n = size)%nat -> inv k st ->
  match for_species n (front + Z.of_nat k) body st with
  | Ok st' => inv size st' | Throw => exists j, (j < size)%nat /\ bad j | _ => False end.
Proof.
  intros H. induction n as [|n IH]; intros k st E I; cbn [for_species].
  - now replace size with k by lia.
  - specialize (H k st ltac:(lia) I). destruct (body (front + Z.of_nat k) st) as [st'| | |]; cbn [bind]; auto.
    + replace (front + Z.of_nat k + 1) with (front + Z.of_nat (Datatypes.S k)) by lia. apply IH; [lia|exact H].
    + exists k. split; [lia|exact H].
Qed.

(** the first k values of the field are read *)
Definition filled {A} (size : nat) (P : nat -> A -> Prop) (k : nat) (l : list A) : Prop :=
  List.length l = size /\ forall j, (j < k)%nat -> exists x, nth_error l j = Some x /\ P j x.
Lemma filled_wr {A} size (P : nat -> A -> Prop) k l front x : (k < size)%nat -> filled size P k l -> P k x ->
  exists l', wr l (front + Z.of_nat k - front) x = Ok l' /\ filled size P (Datatypes.S k) l'.
Proof.
  intros Hk [Hl H] Hx. replace (front + Z.of_nat k - front) with (Z.of_nat k) by lia.
  exists (replace_nth l k x). split.
  - rewrite wr_ok by lia. now rewrite Nat2Z.id.
  - split; [now rewrite replace_nth_length|]. intros j Hj. destruct (Nat.eq_dec j k) as [->|N].
    + exists x. split; [|exact Hx]. apply nth_error_replace_eq. lia.
    + rewrite nth_error_replace_neq by lia. apply H. lia.
Qed.
Lemma filled_0 {A} size (P : nat -> A -> Prop) l : List.length l = size -> filled size P 0 l.
Proof. intros H. split; [exact H|]. intros j Hj. lia. Qed.

Section Fields.
  Context (t : tree) (rg : sp_range).
  Definition value (item : Z -> Z) (name : string) (k : nat) (x : R) : Prop :=
    entry_double t (parameter (item (r_front rg + Z.of_nat k)) name) x.
  Definition absent (item : Z -> Z) (name : string) (k : nat) : Prop := ~ exists x, value item name k x.
  Lemma filled_field item name l : filled (r_size rg) (value item name) (r_size rg) l -> field_of t rg item name l.
  Proof. intros H. exact H. Qed.
  Lemma read_value item name k : 
    (exists x, pcpp_double (species_info t (item (r_front rg + Z.of_nat k))) [Name name] = Ok x /\ value item name k x) \/
    (pcpp_double (species_info t (item (r_front rg + Z.of_nat k))) [Name name] = Throw /\ absent item name k).
  Proof.
    destruct (double_cases (species_info t (item (r_front rg + Z.of_nat k))) [Name name]) as [[x [E F]]|[E F]].
    - left. exists x. split; [exact E|]. now apply entry_path.
    - right. split; [exact E|]. intros [x G]. apply F. exists x. now apply entry_path.
  Qed.
  Lemma not_absent item name k : (k < r_size rg)%nat -> absent item name k -> ~ present t rg item name.
  Proof. intros Hk A P. apply A. exact (P k Hk). Qed.
  Lemma field_present item name l : field_of t rg item name l -> present t rg item name.
  Proof. intros [_ H] k Hk. destruct (H k Hk) as [x [_ G]]. now exists x. Qed.

  Ltac step item name Hk F l' :=
    let x := fresh "x" in let E := fresh "E" in let V := fresh "V" in let W := fresh "W" in
    let F' := fresh F in
    destruct (read_value item name ltac:(match type of Hk with (?k < _)%nat => exact k end)) as [[x [E V]]|[E V]];
    [cbv beta in E; rewrite E; cbn [bind] | cbv beta in E; rewrite E; cbn [bind]; tauto];
    destruct (filled_wr (r_size rg) (value item name) _ _ (r_front rg) x Hk F V) as [l' [W F']];
    rewrite W; cbn [bind].


  Theorem maxwellian_cases g :
    match maxwellian_from_input g rg t with
    | Ok m => field_of t rg (fun isp : Z => isp) "density_eq" (m_density_eq m) /\
              field_of t rg (fun isp : Z => isp) "temperature_eq" (m_temperature_eq m) /\
              field_of t rg (fun isp : Z => isp) "mean_velocity_eq" (m_mean_velocity_eq m)
    | Throw => ~ (present t rg (fun isp : Z => isp) "density_eq" /\ present t rg (fun isp : Z => isp) "temperature_eq" /\
                  present t rg (fun isp : Z => isp) "mean_velocity_eq")
    | _ => False
    end.
  Proof.
    unfold maxwellian_from_input. cbv zeta.
    match goal with |- context [for_species _ _ ?b ?s] => set (body := b); set (s0 := s) end.
    assert (B : forall k st, (k < r_size rg)%nat ->
      (let '(a, b, c) := st in filled (r_size rg) (value (fun isp : Z => isp) "density_eq") k a /\
         filled (r_size rg) (value (fun isp : Z => isp) "temperature_eq") k b /\
         filled (r_size rg) (value (fun isp : Z => isp) "mean_velocity_eq") k c) ->
      match body (r_front rg + Z.of_nat k) st with
      | Ok st' => let '(a, b, c) := st' in filled (r_size rg) (value (fun isp : Z => isp) "density_eq") (Datatypes.S k) a /\
         filled (r_size rg) (value (fun isp : Z => isp) "temperature_eq") (Datatypes.S k) b /\
         filled (r_size rg) (value (fun isp : Z => isp) "mean_velocity_eq") (Datatypes.S k) c
      | Throw => absent (fun isp : Z => isp) "density_eq" k \/ absent (fun isp : Z => isp) "temperature_eq" k \/ absent (fun isp : Z => isp) "mean_velocity_eq" k
      | _ => False end).
    { intros k [[a b] c] Hk [Fa [Fb Fc]]. unfold body. 
      step (fun isp : Z => isp) "density_eq"%string Hk Fa a'. step (fun isp : Z => isp) "temperature_eq"%string Hk Fb b'.
      step (fun isp : Z => isp) "mean_velocity_eq"%string Hk Fc c'. auto. }
    assert (I0 : let '(a, b, c) := s0 in filled (r_size rg) (value (fun isp : Z => isp) "density_eq") 0 a /\
         filled (r_size rg) (value (fun isp : Z => isp) "temperature_eq") 0 b /\
         filled (r_size rg) (value (fun isp : Z => isp) "mean_velocity_eq") 0 c).
    { unfold s0. repeat split; try (intros; lia); now rewrite map_length, seq_length. }
    assert (M := for_species_inv body (r_front rg) (r_size rg) _ _ B (r_size rg) 0%nat s0 eq_refl I0).
    rewrite Z.add_0_r in M. destruct (for_species (r_size rg) (r_front rg) body s0) as [[[a b] c]| | |]; cbn [bind]; auto.
    destruct M as [j [Hj M]]. intros [P1 [P2 P3]].
    destruct M as [M|[M|M]]; exact (not_absent _ _ _ Hj M ltac:(assumption)).
  Qed.

  Theorem bumpontail_cases g :
    match bumpontail_from_input g rg t with
    | Ok m => field_of t rg (fun isp : Z => isp) "epsilon_bot" (m_epsilon_bot m) /\
              field_of t rg (fun isp : Z => isp) "temperature_bot" (m_temperature_bot m) /\
              field_of t rg (fun isp : Z => isp) "mean_velocity_bot" (m_mean_velocity_bot m)
    | Throw => ~ (present t rg (fun isp : Z => isp) "epsilon_bot" /\ present t rg (fun isp : Z => isp) "temperature_bot" /\
                  present t rg (fun isp : Z => isp) "mean_velocity_bot")
    | _ => False
    end.
  Proof.
    unfold bumpontail_from_input. cbv zeta.
    match goal with |- context [for_species _ _ ?b ?s] => set (body := b); set (s0 := s) end.
    assert (B : forall k st, (k < r_size rg)%nat ->
      (let '(a, b, c) := st in filled (r_size rg) (value (fun isp : Z => isp) "epsilon_bot") k a /\
         filled (r_size rg) (value (fun isp : Z => isp) "temperature_bot") k b /\
         filled (r_size rg) (value (fun isp : Z => isp) "mean_velocity_bot") k c) ->
      match body (r_front rg + Z.of_nat k) st with
      | Ok st' => let '(a, b, c) := st' in filled (r_size rg) (value (fun isp : Z => isp) "epsilon_bot") (Datatypes.S k) a /\
         filled (r_size rg) (value (fun isp : Z => isp) "temperature_bot") (Datatypes.S k) b /\
         filled (r_size rg) (value (fun isp : Z => isp) "mean_velocity_bot") (Datatypes.S k) c
      | Throw => absent (fun isp : Z => isp) "epsilon_bot" k \/ absent (fun isp : Z => isp) "temperature_bot" k \/ absent (fun isp : Z => isp) "mean_velocity_bot" k
      | _ => False end).
    { intros k [[a b] c] Hk [Fa [Fb Fc]]. unfold body. 
      step (fun isp : Z => isp) "epsilon_bot"%string Hk Fa a'. step (fun isp : Z => isp) "temperature_bot"%string Hk Fb b'.
      step (fun isp : Z => isp) "mean_velocity_bot"%string Hk Fc c'. auto. }
    assert (I0 : let '(a, b, c) := s0 in filled (r_size rg) (value (fun isp : Z => isp) "epsilon_bot") 0 a /\
         filled (r_size rg) (value (fun isp : Z => isp) "temperature_bot") 0 b /\
         filled (r_size rg) (value (fun isp : Z => isp) "mean_velocity_bot") 0 c).
    { unfold s0. repeat split; try (intros; lia); now rewrite map_length, seq_length. }
    assert (M := for_species_inv body (r_front rg) (r_size rg) _ _ B (r_size rg) 0%nat s0 eq_refl I0).
    rewrite Z.add_0_r in M. destruct (for_species (r_size rg) (r_front rg) body s0) as [[[a b] c]| | |]; cbn [bind]; auto.
    destruct M as [j [Hj M]]. intros [P1 [P2 P3]].
    destruct M as [M|[M|M]]; exact (not_absent _ _ _ Hj M ltac:(assumption)).
  Qed.

  (** the entries are numbered by position *)
  Theorem vparmu_cases g :
    match vparmu_from_input g rg t with
    | Ok m => field_of t rg (fun isp : Z => isp - r_front rg) "mass" (v_mass m) /\ field_of t rg (fun isp : Z => isp - r_front rg) "density_eq" (v_density_eq m) /\
              field_of t rg (fun isp : Z => isp - r_front rg) "temperature_eq" (v_temperature_eq m) /\
              field_of t rg (fun isp : Z => isp - r_front rg) "mean_velocity_eq" (v_mean_velocity_eq m)
    | Throw => ~ (present t rg (fun isp : Z => isp - r_front rg) "mass" /\ present t rg (fun isp : Z => isp - r_front rg) "density_eq" /\
                  present t rg (fun isp : Z => isp - r_front rg) "temperature_eq" /\ present t rg (fun isp : Z => isp - r_front rg) "mean_velocity_eq")
    | _ => False
    end.
  Proof.
    unfold vparmu_from_input. cbv zeta.
    match goal with |- context [for_species _ _ ?b ?s] => set (body := b); set (s0 := s) end.
    assert (B : forall k st, (k < r_size rg)%nat ->
      (let '(w, a, b, c) := st in filled (r_size rg) (value (fun isp : Z => isp - r_front rg) "mass") k w /\
         filled (r_size rg) (value (fun isp : Z => isp - r_front rg) "density_eq") k a /\
         filled (r_size rg) (value (fun isp : Z => isp - r_front rg) "temperature_eq") k b /\
         filled (r_size rg) (value (fun isp : Z => isp - r_front rg) "mean_velocity_eq") k c) ->
      match body (r_front rg + Z.of_nat k) st with
      | Ok st' => let '(w, a, b, c) := st' in filled (r_size rg) (value (fun isp : Z => isp - r_front rg) "mass") (Datatypes.S k) w /\
         filled (r_size rg) (value (fun isp : Z => isp - r_front rg) "density_eq") (Datatypes.S k) a /\
         filled (r_size rg) (value (fun isp : Z => isp - r_front rg) "temperature_eq") (Datatypes.S k) b /\
         filled (r_size rg) (value (fun isp : Z => isp - r_front rg) "mean_velocity_eq") (Datatypes.S k) c
      | Throw => absent (fun isp : Z => isp - r_front rg) "mass" k \/ absent (fun isp : Z => isp - r_front rg) "density_eq" k \/ absent (fun isp : Z => isp - r_front rg) "temperature_eq" k \/
                 absent (fun isp : Z => isp - r_front rg) "mean_velocity_eq" k
      | _ => False end).
    { intros k [[[w a] b] c] Hk [Fw [Fa [Fb Fc]]]. unfold body. 
      step (fun isp : Z => isp - r_front rg) "mass"%string Hk Fw w'.
      step (fun isp : Z => isp - r_front rg) "density_eq"%string Hk Fa a'. step (fun isp : Z => isp - r_front rg) "temperature_eq"%string Hk Fb b'.
      step (fun isp : Z => isp - r_front rg) "mean_velocity_eq"%string Hk Fc c'. auto. }
    assert (I0 : let '(w, a, b, c) := s0 in filled (r_size rg) (value (fun isp : Z => isp - r_front rg) "mass") 0 w /\
         filled (r_size rg) (value (fun isp : Z => isp - r_front rg) "density_eq") 0 a /\
         filled (r_size rg) (value (fun isp : Z => isp - r_front rg) "temperature_eq") 0 b /\
         filled (r_size rg) (value (fun isp : Z => isp - r_front rg) "mean_velocity_eq") 0 c).
    { unfold s0. repeat split; try (intros; lia); now rewrite map_length, seq_length. }
    assert (M := for_species_inv body (r_front rg) (r_size rg) _ _ B (r_size rg) 0%nat s0 eq_refl I0).
    rewrite Z.add_0_r in M. destruct (for_species (r_size rg) (r_front rg) body s0) as [[[[w a] b] c]| | |]; cbn [bind]; auto.
    destruct M as [j [Hj M]]. intros [P1 [P2 [P3 P4]]].
    destruct M as [M|[M|[M|M]]]; exact (not_absent _ _ _ Hj M ltac:(assumption)).
  Qed.

  Lemma cast_int_small z : is_int z -> cast_int z = z.
  Proof. unfold is_int, cast_int. intros H. rewrite Z.mod_small; lia. Qed.
  Lemma cast_int_is z : is_int (cast_int z).
  Proof. unfold is_int, cast_int. assert (H := Z.mod_pos_bound (z + 2147483648) 4294967296 eq_refl). lia. Qed.

  Definition mode_value (k : nat) (y : Z) : Prop :=
    exists x, entry_int t (parameter (r_front rg + Z.of_nat k) "perturb_mode") x /\ y = cast_int x.
  Theorem single_mode_cases g h :
    match single_mode_from_input g h rg t with
    | Ok m => field_of t rg (fun isp : Z => isp) "perturb_amplitude" (m_init_perturb_amplitude m) /\
              List.length (m_init_perturb_mode m) = r_size rg /\
              forall k, (k < r_size rg)%nat -> exists x, entry_int t (parameter (r_front rg + Z.of_nat k) "perturb_mode") x /\
                nth_error (m_init_perturb_mode m) k = Some (cast_int x)
    | Throw => ~ (present t rg (fun isp : Z => isp) "perturb_amplitude" /\ present_int t rg "perturb_mode")
    | _ => False
    end.
  Proof.
    unfold single_mode_from_input. cbv zeta.
    match goal with |- context [for_species _ _ ?b ?s] => set (body := b); set (s0 := s) end.
    assert (B : forall k st, (k < r_size rg)%nat ->
      (let '(m, a) := st in filled (r_size rg) mode_value k m /\
         filled (r_size rg) (value (fun isp : Z => isp) "perturb_amplitude") k a) ->
      match body (r_front rg + Z.of_nat k) st with
      | Ok st' => let '(m, a) := st' in filled (r_size rg) mode_value (Datatypes.S k) m /\
         filled (r_size rg) (value (fun isp : Z => isp) "perturb_amplitude") (Datatypes.S k) a
      | Throw => absent (fun isp : Z => isp) "perturb_amplitude" k \/
                 ~ exists x, entry_int t (parameter (r_front rg + Z.of_nat k) "perturb_mode") x
      | _ => False end).
    { intros k [m a] Hk [Fm Fa]. unfold body. 
      step (fun isp : Z => isp) "perturb_amplitude"%string Hk Fa a'.
      destruct (int_cases (species_info t (r_front rg + Z.of_nat k)) [Name "perturb_mode"]) as [[y [E1 V1]]|[E1 V1]];
        rewrite E1; cbn [bind].
      - apply entry_int_path in V1.
        destruct (filled_wr (r_size rg) mode_value k m (r_front rg) (cast_int y) Hk Fm) as [m' [W1 F1]]; [now exists y|].
        rewrite W1. cbn [bind]. auto.
      - right. intros [x' G]. apply V1. exists x'. now apply entry_int_path. }
    assert (I0 : let '(m, a) := s0 in filled (r_size rg) mode_value 0 m /\
         filled (r_size rg) (value (fun isp : Z => isp) "perturb_amplitude") 0 a).
    { unfold s0. repeat split; try (intros; lia); now rewrite map_length, seq_length. }
    assert (M := for_species_inv body (r_front rg) (r_size rg) _ _ B (r_size rg) 0%nat s0 eq_refl I0).
    rewrite Z.add_0_r in M. destruct (for_species (r_size rg) (r_front rg) body s0) as [[m a]| | |]; cbn [bind]; auto.
    - destruct M as [[L M] Fa]. split; [exact Fa|]. split; [exact L|]. intros k Hk.
      destruct (M k Hk) as [y [E [x [G ->]]]]. exists x. auto.
    - destruct M as [j [Hj M]]. intros [P1 P2]. destruct M as [M|M]; [exact (not_absent _ _ _ Hj M P1)|].
      apply M. exact (P2 j Hj).
  Qed.
End Fields.
