(** Consequences for the three solvers. *)
From Coq Require Import Rgeom.
From Verif Require Import Lib DerivModel PcrModel PcrSpec PcrProofs PcrImplicit.
Open Scope R_scope.

Lemma event_eq e e' l i t r P : is_event e l i t r P -> is_event e' l i t r P -> (forall a b, P a -> P b -> a = b) -> e = e'.
Proof.
  intros (A & B & C & D & E) (A' & B' & C' & D' & E') HP. destruct e, e'. cbn in *. f_equal; try congruence. apply HP; assumption.
Qed.
Lemma list_eq_nth (l l' : list event) : length l = length l' -> (forall k, (k < length l)%nat -> nth_error l k = nth_error l' k) -> l = l'.
Proof.
  revert l'. induction l as [|a l IH]; intros [|b l'] HL H; cbn in HL; try discriminate; [reflexivity|].
  pose proof (H 0%nat ltac:(cbn; lia)) as H0. cbn in H0. injection H0 as ->. f_equal. apply IH; [lia|]. intros k Hk. apply (H (S k)). cbn. lia.
Qed.
(** ** The result does not depend on the other buffers or on the memory space *)
Lemma predcorr_independent o s s' dt steps m m2 rho m' : given m rho -> given m2 rho -> predcorr o s dt steps m = Ok m' ->
  exists m2', predcorr o s' dt steps m2 = Ok m2' /\ m_s m2' DENSITY_HOST = m_s m' DENSITY_HOST /\ m_events m2' = m_events m'.
Proof.
  intros G G2 H. destruct (predcorr_sound o s dt steps m rho m' G H) as (ds & T & D & L & (e0 & N0 & V0) & V).
  assert (HP : forall k, (k <= count steps)%nat -> exists phi, grid_potential o (ds k) phi).
  { intros [|k] Hk; [rewrite (proj1 T); eexists; apply V0|]. destruct (V k ltac:(lia)) as (e & _ & E). eexists. apply E. }
  destruct (predcorr_complete o s' dt steps m2 rho ds G2 T HP) as [m2' E2]. exists m2'. split; [exact E2|].
  destruct (predcorr_sound o s' dt steps m2 rho m2' G2 E2) as (ds' & T' & D' & L' & (e0' & N0' & V0') & V').
  assert (X : forall i, (i <= count steps)%nat -> ds' i = ds i) by (apply (traj_unique (midpoint_step o dt) _ rho); auto; apply midpoint_fun).
  split; [rewrite D, D'; apply X; lia|]. apply list_eq_nth; [congruence|]. rewrite L'. intros [|k] Hk.
  - rewrite N0, N0'. f_equal. eapply event_eq; eauto. apply grid_fun.
  - destruct (V k ltac:(lia)) as (e & N & E). destruct (V' k ltac:(lia)) as (e' & N' & E'). rewrite N, N'. f_equal. rewrite X in E' by lia. eapply event_eq; eauto. apply grid_fun.
Qed.
Lemma explicit_independent o s s' dt steps m m2 rho m' : given m rho -> given m2 rho -> explicit_predcorr o s dt steps m = Ok m' ->
  exists m2', explicit_predcorr o s' dt steps m2 = Ok m2' /\ m_s m2' DENSITY_HOST = m_s m' DENSITY_HOST /\ m_events m2' = m_events m'.
Proof.
  intros G G2 H. destruct (explicit_sound o s dt steps m rho m' G H) as (ds & T & D & L & V & (e0 & N0 & V0)).
  assert (HP : forall k, (k < count steps)%nat -> exists phi, polar_potential_of o (ds k) phi).
  { intros k Hk. destruct (V k ltac:(lia)) as (e & _ & E). eexists. apply E. }
  destruct (explicit_complete o s' dt steps m2 rho ds G2 T HP) as [m2' E2]; [eexists; apply V0|]. exists m2'. split; [exact E2|].
  destruct (explicit_sound o s' dt steps m2 rho m2' G2 E2) as (ds' & T' & D' & L' & V' & (e0' & N0' & V0')).
  assert (X : forall i, (i <= count steps)%nat -> ds' i = ds i) by (apply (traj_unique (explicit_code o dt) _ rho); auto; apply explicit_fun).
  split; [rewrite D, D'; apply X; lia|]. apply list_eq_nth; [congruence|]. rewrite L'. intros k Hk. destruct (Nat.eq_dec k (count steps)) as [->|NE].
  - rewrite N0, N0'. f_equal. rewrite X in V0' by lia. eapply event_eq; eauto. apply grid_fun.
  - destruct (V k ltac:(lia)) as (e & N & E). destruct (V' k ltac:(lia)) as (e' & N' & E'). rewrite N, N'. f_equal. rewrite X in E' by lia. eapply event_eq; eauto. apply polar_fun.
Qed.
Lemma implicit_independent o s s' dt steps m m2 rho m' : given m rho -> given m2 rho -> implicit_predcorr o s dt steps m = Ok m' ->
  exists m2', implicit_predcorr o s' dt steps m2 = Ok m2' /\ m_s m2' DENSITY_HOST = m_s m' DENSITY_HOST /\
    (s = s' -> m_events m2' = m_events m').
Proof.
  intros G G2 H. destruct (implicit_sound o s dt steps m rho m' G H) as (ds & T & D & L & V & (e0 & N0 & V0)).
  assert (HP : forall k, (k < count steps)%nat -> exists phi, polar_potential_of o (ds k) phi).
  { intros k Hk. destruct (V k ltac:(lia)) as (e & _ & E). eexists. apply E. }
  destruct (implicit_complete o s' dt steps m2 rho ds G2 T HP) as [m2' E2]; [eexists; apply V0|]. exists m2'. split; [exact E2|].
  destruct (implicit_sound o s' dt steps m2 rho m2' G2 E2) as (ds' & T' & D' & L' & V' & (e0' & N0' & V0')).
  assert (X : forall i, (i <= count steps)%nat -> ds' i = ds i) by (apply (traj_unique (implicit_code o dt) _ rho); auto; apply implicit_fun).
  split; [rewrite D, D'; apply X; lia|]. intros <-. apply list_eq_nth; [congruence|]. rewrite L'. intros k Hk. destruct (Nat.eq_dec k (count steps)) as [->|NE].
  - rewrite N0, N0'. f_equal. rewrite !X in V0' by lia. eapply event_eq; eauto. apply grid_fun.
  - destruct (V k ltac:(lia)) as (e & N & E). destruct (V' k ltac:(lia)) as (e' & N' & E'). rewrite N, N'. f_equal. rewrite X in E' by lia. eapply event_eq; eauto. apply polar_fun.
Qed.

(** ** Restart *)
Lemma traj_app (step : list R -> list R -> Prop) n k rho ds ds' : trajectory step n rho ds -> trajectory step k (ds n) ds' ->
  trajectory step (n + k) rho (fun i => if (i <=? n)%nat then ds i else ds' (i - n)%nat).
Proof.
  intros [A B] [A' B']. split; [exact A|]. intros i Hi. destruct (Nat.leb_spec i n), (Nat.leb_spec (S i) n); try lia.
  - apply B. lia.
  - assert (i = n) by lia. subst i. rewrite <- A'. replace (S n - n)%nat with 1%nat by lia. apply B'. lia.
  - replace (S i - n)%nat with (S (i - n)) by lia. apply B'. lia.
Qed.
Lemma predcorr_restart o s dt n k m m1 m2 m3 rho : (0 <= n)%Z -> (0 <= k)%Z -> given m rho -> predcorr o s dt n m = Ok m1 ->
  given m2 (m_s m1 DENSITY_HOST) -> predcorr o s dt k m2 = Ok m3 ->
  exists m4, predcorr o s dt (n + k) m = Ok m4 /\ m_s m4 DENSITY_HOST = m_s m3 DENSITY_HOST.
Proof.
  intros Hn Hk G H G2 H2. destruct (predcorr_sound o s dt n m rho m1 G H) as (ds & T & D & L & (e0 & N0 & V0) & V).
  destruct (predcorr_sound o s dt k m2 _ m3 G2 H2) as (ds' & T' & D' & L' & (e0' & N0' & V0') & V'). rewrite D in T'.
  pose proof (traj_app _ _ _ _ _ _ T T') as TT. assert (C : count (n + k) = (count n + count k)%nat) by (unfold count; lia). rewrite <- C in TT.
  destruct (predcorr_complete o s dt (n + k) m rho _ G TT) as [m4 E].
  { intros i Hi. rewrite C in Hi. destruct (Nat.leb_spec i (count n)).
    - destruct i as [|i]; [rewrite (proj1 T); eexists; apply V0|]. destruct (V i ltac:(lia)) as (e & _ & E). eexists. apply E.
    - replace (i - count n)%nat with (S (i - count n - 1)) by lia. destruct (V' (i - count n - 1)%nat ltac:(lia)) as (e & _ & E). eexists. apply E. }
  exists m4. split; [exact E|]. destruct (predcorr_sound o s dt (n + k) m rho m4 G E) as (ds4 & T4 & D4 & _).
  rewrite D4, D'. rewrite (traj_unique _ _ _ _ _ (midpoint_fun o dt) T4 TT (count (n + k)) (le_n _)). rewrite C.
  destruct (Nat.leb_spec (count n + count k) (count n)).
  - replace (count k) with 0%nat by lia. rewrite Nat.add_0_r, (proj1 T'). reflexivity.
  - f_equal. lia.
Qed.
Lemma explicit_restart o s dt n k m m1 m2 m3 rho : (0 <= n)%Z -> (0 <= k)%Z -> given m rho -> explicit_predcorr o s dt n m = Ok m1 ->
  given m2 (m_s m1 DENSITY_HOST) -> explicit_predcorr o s dt k m2 = Ok m3 ->
  exists m4, explicit_predcorr o s dt (n + k) m = Ok m4 /\ m_s m4 DENSITY_HOST = m_s m3 DENSITY_HOST.
Proof.
  intros Hn Hk G H G2 H2. destruct (explicit_sound o s dt n m rho m1 G H) as (ds & T & D & L & V & (e0 & N0 & V0)).
  destruct (explicit_sound o s dt k m2 _ m3 G2 H2) as (ds' & T' & D' & L' & V' & (e0' & N0' & V0')). rewrite D in T'.
  pose proof (traj_app _ _ _ _ _ _ T T') as TT. assert (C : count (n + k) = (count n + count k)%nat) by (unfold count; lia). rewrite <- C in TT.
  assert (LST : (fun i => if (i <=? count n)%nat then ds i else ds' (i - count n)%nat) (count (n + k)) = ds' (count k)).
  { cbv beta. rewrite C. destruct (Nat.leb_spec (count n + count k) (count n)).
    - replace (count k) with 0%nat by lia. rewrite Nat.add_0_r, (proj1 T'). reflexivity.
    - f_equal. lia. }
  destruct (explicit_complete o s dt (n + k) m rho _ G TT) as [m4 E].
  { intros i Hi. rewrite C in Hi. destruct (Nat.leb_spec i (count n)) as [Hi'|Hi'].
    - destruct (Nat.eq_dec i (count n)) as [->|NE].
      + rewrite <- (proj1 T'). destruct (V' 0%nat ltac:(lia)) as (e & _ & E). eexists. apply E.
      + destruct (V i ltac:(lia)) as (e & _ & E). eexists. apply E.
    - destruct (V' (i - count n)%nat ltac:(lia)) as (e & _ & E). eexists. apply E. }
  { cbv beta in LST. rewrite LST. eexists. apply V0'. }
  exists m4. split; [exact E|]. destruct (explicit_sound o s dt (n + k) m rho m4 G E) as (ds4 & T4 & D4 & _).
  rewrite D4, D', <- LST. apply (traj_unique (explicit_code o dt) _ _ _ _ (explicit_fun _ o dt) T4 TT). apply le_n.
Qed.
Lemma implicit_restart o s dt n k m m1 m2 m3 rho : (0 <= n)%Z -> (0 <= k)%Z -> given m rho -> implicit_predcorr o s dt n m = Ok m1 ->
  given m2 (m_s m1 DENSITY_HOST) -> implicit_predcorr o s dt k m2 = Ok m3 ->
  exists m4, implicit_predcorr o s dt (n + k) m = Ok m4 /\ m_s m4 DENSITY_HOST = m_s m3 DENSITY_HOST.
Proof.
  intros Hn Hk G H G2 H2. destruct (implicit_sound o s dt n m rho m1 G H) as (ds & T & D & L & V & (e0 & N0 & V0)).
  destruct (implicit_sound o s dt k m2 _ m3 G2 H2) as (ds' & T' & D' & L' & V' & (e0' & N0' & V0')). rewrite D in T'.
  pose proof (traj_app _ _ _ _ _ _ T T') as TT. assert (C : count (n + k) = (count n + count k)%nat) by (unfold count; lia). rewrite <- C in TT.
  assert (LST : (fun i => if (i <=? count n)%nat then ds i else ds' (i - count n)%nat) (count (n + k)) = ds' (count k)).
  { cbv beta. rewrite C. destruct (Nat.leb_spec (count n + count k) (count n)).
    - replace (count k) with 0%nat by lia. rewrite Nat.add_0_r, (proj1 T'). reflexivity.
    - f_equal. lia. }
  destruct (implicit_complete o s dt (n + k) m rho _ G TT) as [m4 E].
  { intros i Hi. rewrite C in Hi. destruct (Nat.leb_spec i (count n)) as [Hi'|Hi'].
    - destruct (Nat.eq_dec i (count n)) as [->|NE].
      + rewrite <- (proj1 T'). destruct (V' 0%nat ltac:(lia)) as (e & _ & E). eexists. apply E.
      + destruct (V i ltac:(lia)) as (e & _ & E). eexists. apply E.
    - destruct (V' (i - count n)%nat ltac:(lia)) as (e & _ & E). eexists. apply E. }
  { cbv beta in LST. rewrite LST. eexists. apply V0'. }
  exists m4. split; [exact E|]. destruct (implicit_sound o s dt (n + k) m rho m4 G E) as (ds4 & T4 & D4 & _).
  rewrite D4, D', <- LST. apply (traj_unique (implicit_code o dt) _ _ _ _ (implicit_fun _ _ o dt) T4 TT). apply le_n.
Qed.

(** ** Invariants of the advection *)
Lemma traj_inv (step : list R -> list R -> Prop) (P : list R -> Prop) n rho ds : (forall a b, step a b -> P a -> P b) -> trajectory step n rho ds -> P rho -> forall i, (i <= n)%nat -> P (ds i).
Proof. intros HS [A B] HP. induction i as [|i IH]; intros Hi; [rewrite A; exact HP|]. apply (HS (ds i)); [apply B; lia|apply IH; lia]. Qed.
Lemma keeps_midpoint o P dt a b : advection_keeps o P -> midpoint_step o dt a b -> P a -> P b.
Proof. intros K (A & rP & AP & _ & _ & _ & H) HP. eapply K; eassumption. Qed.
Lemma keeps_explicit w o P dt a b : advection_keeps o P -> explicit_step w o dt a b -> P a -> P b.
Proof. intros K (A & rP & X & AP & B & _ & _ & _ & _ & _ & H) HP. eapply K; eassumption. Qed.
Lemma keeps_implicit w tau o P dt a b : advection_keeps o P -> implicit_step w tau o dt a b -> P a -> P b.
Proof. intros K (A & X & AX & rP & AP & Y & AY & _ & _ & _ & _ & _ & _ & _ & _ & H) HP. eapply K; eassumption. Qed.
Lemma nth_in_lt {A} (l : list A) e : In e l -> exists k, (k < length l)%nat /\ nth_error l k = Some e.
Proof. intros H. apply In_nth_error in H. destruct H as [k Hk]. exists k. split; [apply nth_error_Some; congruence|exact Hk]. Qed.
Lemma invariants o P s dt steps m rho m' : advection_keeps o P -> given m rho -> P rho ->
  (predcorr o s dt steps m = Ok m' \/ explicit_predcorr o s dt steps m = Ok m' \/ implicit_predcorr o s dt steps m = Ok m') ->
  P (m_s m' DENSITY_HOST) /\ forall e, In e (m_events m') -> P (ev_density e).
Proof.
  intros K G HP [H|[H|H]].
  - destruct (predcorr_sound o s dt steps m rho m' G H) as (ds & T & D & L & (e0 & N0 & V0) & V).
    pose proof (traj_inv _ P _ _ _ (fun a b => keeps_midpoint o P dt a b K) T HP) as I. split; [rewrite D; apply I; lia|].
    intros e He. apply nth_in_lt in He. destruct He as ([|k] & Hk & N); rewrite L in Hk.
    + assert (e = e0) by congruence. subst e. destruct V0 as (_ & _ & _ & -> & _). exact HP.
    + destruct (V k ltac:(lia)) as (e' & N' & (_ & _ & _ & E & _)). assert (e = e') by congruence. subst e'. rewrite E. apply I. lia.
  - destruct (explicit_sound o s dt steps m rho m' G H) as (ds & T & D & L & V & (e0 & N0 & V0)).
    pose proof (traj_inv _ P _ _ _ (fun a b => keeps_explicit _ o P dt a b K) T HP) as I. split; [rewrite D; apply I; lia|].
    intros e He. apply nth_in_lt in He. destruct He as (k & Hk & N); rewrite L in Hk. destruct (Nat.eq_dec k (count steps)) as [->|].
    + assert (e = e0) by congruence. subst e. destruct V0 as (_ & _ & _ & -> & _). apply I. lia.
    + destruct (V k ltac:(lia)) as (e' & N' & (_ & _ & _ & E & _)). assert (e = e') by congruence. subst e'. rewrite E. apply I. lia.
  - destruct (implicit_sound o s dt steps m rho m' G H) as (ds & T & D & L & V & (e0 & N0 & V0)).
    pose proof (traj_inv _ P _ _ _ (fun a b => keeps_implicit _ _ o P dt a b K) T HP) as I. split; [rewrite D; apply I; lia|].
    intros e He. apply nth_in_lt in He. destruct He as (k & Hk & N); rewrite L in Hk. destruct (Nat.eq_dec k (count steps)) as [->|].
    + assert (e = e0) by congruence. subst e. destruct V0 as (_ & _ & _ & -> & _). destruct s; apply I; lia.
    + destruct (V k ltac:(lia)) as (e' & N' & (_ & _ & _ & E & _)). assert (e = e') by congruence. subst e'. rewrite E. apply I. lia.
Qed.
Lemma no_steps o s dt steps m rho m' : (steps <= 0)%Z -> given m rho ->
  (predcorr o s dt steps m = Ok m' \/ explicit_predcorr o s dt steps m = Ok m' \/ implicit_predcorr o s dt steps m = Ok m') ->
  m_s m' DENSITY_HOST = rho /\ length (m_events m') = 1%nat.
Proof.
  intros Hs G H. assert (C : count steps = 0%nat) by (unfold count; lia). destruct H as [H|[H|H]].
  - destruct (predcorr_sound o s dt steps m rho m' G H) as (ds & T & D & L & _). rewrite C in *. rewrite D, (proj1 T). auto.
  - destruct (explicit_sound o s dt steps m rho m' G H) as (ds & T & D & L & _). rewrite C in *. rewrite D, (proj1 T). auto.
  - destruct (implicit_sound o s dt steps m rho m' G H) as (ds & T & D & L & _). rewrite C in *. rewrite D, (proj1 T). auto.
Qed.
(** ** When the prediction has the same field, the two explicit schemes coincide *)
Lemma steady_explicit o dt rho rho' A rhoP : field_of o rho A -> o_advect o rho A dt = Ok rhoP -> field_of o rhoP A ->
  (explicit_code o dt rho rho' <-> explicit_documented o dt rho rho').
Proof.
  intros F P FP. split; intros (A1 & rP & X & AP & B & H1 & H2 & H3 & H4 & H5 & H6);
    assert (A1 = A) by (eapply field_fun; eassumption); subst A1; assert (rP = rhoP) by congruence; subst rP; assert (AP = A) by (eapply field_fun; eassumption); subst AP;
    exists A, rhoP, X, A, B; repeat split; assumption.
Qed.

(** ** Convergence of the fixed point iteration *)
Definition gap (o : operators) (p q : R * R) : R := sqrt ((fst (o_phys o p) - fst (o_phys o q)) ^ 2 + (snd (o_phys o p) - snd (o_phys o q)) ^ 2).
Lemma gap_triangle o p q r : gap o p r <= gap o p q + gap o q r.
Proof.
  unfold gap. pose proof (triangle (fst (o_phys o p)) (snd (o_phys o p)) (fst (o_phys o r)) (snd (o_phys o r)) (fst (o_phys o q)) (snd (o_phys o q))) as T.
  unfold dist_euc in T. rewrite <- !Rsqr_pow2. exact T.
Qed.
Lemma gap_sym o p q : gap o p q = gap o q p.
Proof. unfold gap. f_equal. ring. Qed.
Definition far (o : operators) (X Y : list (R * R)) : R := reduce_max (map (fun p => gap o (fst p) (snd p)) (combine X Y)).
Lemma far_le o X Y e : 0 <= e -> (far o X Y <= e <-> close_feet o X Y e).
Proof.
  intros He. unfold far, reduce_max. rewrite fold_max_le. split.
  - intros [_ H] p q Hp. apply H. apply in_map_iff. exists (p, q). auto.
  - intros H. split; [exact He|]. intros x Hx. apply in_map_iff in Hx. destruct Hx as ([p q] & <- & Hp). apply H. exact Hp.
Qed.
Lemma far_pos o X Y : 0 <= far o X Y.
Proof. exact (proj1 (proj1 (fold_max_le (map (fun p => gap o (fst p) (snd p)) (combine X Y)) 0 (far o X Y)) (Rle_refl _))). Qed.
Lemma in_combine_nth {A B} (l : list A) (l' : list B) a b : In (a, b) (combine l l') -> exists k, nth_error l k = Some a /\ nth_error l' k = Some b.
Proof.
  revert l'. induction l as [|x l IH]; intros [|y l']; cbn; try tauto. intros [E|H]; [injection E as -> ->; exists 0%nat; auto|].
  destruct (IH l' H) as (k & H1 & H2). exists (S k). auto.
Qed.
Lemma nth_in_combine {A B} (l : list A) (l' : list B) a b k : nth_error l k = Some a -> nth_error l' k = Some b -> In (a, b) (combine l l').
Proof.
  revert l' k. induction l as [|x l IH]; intros [|y l'] [|k]; cbn; try discriminate.
  - intros [= ->] [= ->]. left. reflexivity.
  - intros H1 H2. right. eapply IH; eassumption.
Qed.
Lemma far_triangle o X Y Z : length X = length Y -> far o X Z <= far o X Y + far o Y Z.
Proof.
  intros HL. pose proof (far_pos o X Y). pose proof (far_pos o Y Z). apply far_le; [lra|]. intros p r H1. apply in_combine_nth in H1. destruct H1 as (k & K1 & K2).
  destruct (nth_error Y k) as [q|] eqn:K3.
  - pose proof (proj1 (far_le o X Y _ (far_pos o X Y)) (Rle_refl _) p q (nth_in_combine _ _ _ _ k K1 K3)).
    pose proof (proj1 (far_le o Y Z _ (far_pos o Y Z)) (Rle_refl _) q r (nth_in_combine _ _ _ _ k K3 K2)).
    pose proof (gap_triangle o p q r). unfold gap in *. lra.
  - apply nth_error_None in K3. assert (k < length X)%nat by (apply nth_error_Some; congruence). lia.
Qed.
Lemma combine_swap {A B} (l : list A) (l' : list B) a b : In (a, b) (combine l l') -> In (b, a) (combine l' l).
Proof. intros H. apply in_combine_nth in H. destruct H as (k & H1 & H2). eapply nth_in_combine; eassumption. Qed.
Lemma far_sym o X Y : far o X Y = far o Y X.
Proof.
  assert (S : forall X Y, far o X Y <= far o Y X).
  { intros X' Y'. apply far_le; [apply far_pos|]. intros p q H. apply combine_swap in H. pose proof (proj1 (far_le o Y' X' _ (far_pos o Y' X')) (Rle_refl _) q p H) as G.
    pose proof (gap_sym o p q). unfold gap in *. lra. }
  apply Rle_antisym; apply S.
Qed.
Lemma picard_length o A h X X' : feet_lengths o -> picard o A h X X' -> length X' = length (o_grid o).
Proof. intros HL (B & _ & H). apply HL in H. exact H. Qed.
Lemma loop_converges o A h tau k Xs L D : 0 <= L -> 0 <= D -> feet_lengths o -> contraction o A h L -> feet_iteration o A h tau k Xs ->
  close_feet o (Xs 1%nat) (Xs 0%nat) D -> L ^ 49 * D <= tau -> close_feet o (Xs k) (Xs (k - 1)%nat) tau.
Proof.
  intros HL HD HF HC (I0 & I1 & I2 & I3 & [I4|I4]) H1 HT; [exact I4|]. subst k.
  assert (LE : forall i, (i <= 50)%nat -> length (Xs i) = length (o_grid o)).
  { intros [|i] Hi; [rewrite I0; reflexivity|]. apply (picard_length o A h (Xs i)); [exact HF|apply I2; lia]. }
  assert (X : forall i, (i < 50)%nat -> close_feet o (Xs (S i)) (Xs i) (L ^ i * D)).
  { induction i as [|i IH]; intros Hi; [rewrite pow_O, Rmult_1_l; exact H1|].
    replace (L ^ S i * D) with (L * (L ^ i * D)) by (cbn [pow]; ring). apply (HC (Xs (S i)) (Xs i)); [apply LE; lia|apply LE; lia|apply I2; lia|apply I2; lia| |apply IH; lia].
    apply Rmult_le_pos; [apply pow_le; exact HL|exact HD]. }
  intros p q Hp. specialize (X 49%nat ltac:(lia) p q Hp). change (50 - 1)%nat with 49%nat in *. lra.
Qed.
Lemma loop_error o A h tau k Xs L X : 0 <= L < 1 -> 0 <= tau -> feet_lengths o -> contraction o A h L -> feet_iteration o A h tau k Xs ->
  close_feet o (Xs k) (Xs (k - 1)%nat) tau -> picard o A h X X -> close_feet o (Xs k) X (L / (1 - L) * tau).
Proof.
  intros HL Ht HF HC (I0 & I1 & I2 & I3 & I4) H1 HX.
  assert (P : picard o A h (Xs (k - 1)%nat) (Xs k)) by (replace k with (S (k - 1)) at 2 by lia; apply I2; lia).
  assert (LE : forall i, (i <= k)%nat -> length (Xs i) = length (o_grid o)).
  { intros [|i] Hi; [rewrite I0; reflexivity|]. apply (picard_length o A h (Xs i)); [exact HF|apply I2; lia]. }
  assert (Q : 0 <= L / (1 - L) * tau). { apply Rmult_le_pos; [|exact Ht]. apply Rmult_le_pos; [lra|]. left. apply Rinv_0_lt_compat. lra. }
  apply far_le; [exact Q|]. apply far_le in H1; [|exact Ht].
  set (b := far o (Xs k) X). set (a := far o (Xs (k - 1)%nat) X).
  assert (B : b <= L * a).
  { apply far_le; [apply Rmult_le_pos; [lra|apply far_pos]|]. apply (HC (Xs (k - 1)%nat) X); [apply LE; lia|apply (picard_length o A h X); assumption|exact P|exact HX|apply far_pos|]. apply far_le; [apply far_pos|apply Rle_refl]. }
  assert (T : a <= far o (Xs (k - 1)%nat) (Xs k) + b) by (apply far_triangle; rewrite !LE by lia; reflexivity).
  rewrite far_sym in T. assert (LA : L * a <= L * (tau + b)) by (apply Rmult_le_compat_l; lra).
  apply Rmult_le_reg_l with (1 - L); [lra|]. replace ((1 - L) * (L / (1 - L) * tau)) with (L * tau) by (field; lra). lra.
Qed.
(** the call of the loop *)
Lemma loop_result o shared h tau m A m1 : 0 <= tau -> ready o shared m A -> implicit_loop o shared h tau m = Ok m1 ->
  m_s m1 = m_s m /\ m_events m1 = m_events m /\ gv (alias_im shared) ADV m1 = A /\ feet_solution o A h tau (feet_in shared m1).
Proof. intros Ht (B & <- & F) H. exact (loop_inv o shared h tau m m1 Ht B F H). Qed.
Lemma loop_runs o shared h tau m A X : 0 <= tau -> ready o shared m A -> feet_solution o A h tau X ->
  exists m1, implicit_loop o shared h tau m = Ok m1 /\ feet_in shared m1 = X.
Proof.
  intros Ht (B & <- & F) S. destruct (loop_total o shared h tau m X Ht B F S) as [m1 E]. exists m1. split; [exact E|].
  destruct (loop_inv o shared h tau m m1 Ht B F E) as (_ & _ & _ & S'). eapply feet_fun; eassumption.
Qed.
