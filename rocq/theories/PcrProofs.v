(** The runs of the three solvers are the trajectories of their schemes. *)
From Verif Require Import Lib DerivModel PcrModel PcrSpec.
Open Scope R_scope.

Section MemLemmas.
Context (al : alias).
Lemma gs_ps b c v m : gs al b (ps al c v m) = if sbuf_beq (at_s al b) (at_s al c) then v else gs al b m.
Proof. reflexivity. Qed.
Lemma gv_pv b c v m : gv al b (pv al c v m) = if vbuf_beq (at_v al b) (at_v al c) then v else gv al b m.
Proof. reflexivity. Qed.
Lemma gs_pv b c v m : gs al b (pv al c v m) = gs al b m. Proof. reflexivity. Qed.
Lemma gv_ps b c v m : gv al b (ps al c v m) = gv al b m. Proof. reflexivity. Qed.
Lemma gs_pub b l i t m : gs al b (publish al l i t m) = gs al b m. Proof. reflexivity. Qed.
Lemma gv_pub b l i t m : gv al b (publish al l i t m) = gv al b m. Proof. reflexivity. Qed.
Lemma ev_ps b v m : m_events (ps al b v m) = m_events m. Proof. reflexivity. Qed.
Lemma ev_pv b v m : m_events (pv al b v m) = m_events m. Proof. reflexivity. Qed.
Lemma ev_pub l i t m : m_events (publish al l i t m) = m_events m ++ [{| ev_last := l; ev_iter := i; ev_time := t; ev_density := gs al DENSITY_HOST m; ev_potential := gs al PHI_HOST m |}].
Proof. reflexivity. Qed.
End MemLemmas.
Ltac mem := lazy beta iota zeta delta [gs gv ps pv publish copy_s copy_v reset_feet m_s m_v m_events at_s at_v alias_pc alias_ex alias_im separate sbuf_beq vbuf_beq].
Ltac mem_in H := lazy beta iota zeta delta [gs gv ps pv publish copy_s copy_v reset_feet m_s m_v m_events at_s at_v alias_pc alias_ex alias_im separate sbuf_beq vbuf_beq] in H.
Section Commands.
Context (al : alias) (o : operators).
Lemma build_inv d s m m1 : build al o d s m = Ok m1 -> exists c, o_build o (gs al s m) = Ok c /\ m1 = ps al d c m.
Proof. unfold build. destruct (o_build o (gs al s m)) as [c| | |]; cbn [bind]; try discriminate. intros H. exists c. split; congruence. Qed.
Lemma pcoef_inv m m1 : poisson_coef al o m = Ok m1 -> exists c, o_poisson_coef o (o_value o (gs al DENSITY_COEF m)) = Ok c /\ m1 = ps al PHI_COEF c m.
Proof. unfold poisson_coef, charge_density. destruct (o_poisson_coef o _) as [c| | |]; cbn [bind]; try discriminate. intros H. exists c. split; congruence. Qed.
Lemma pgrid_inv m m1 : poisson_grid al o m = Ok m1 -> exists c, o_poisson_grid o (o_value o (gs al DENSITY_COEF m)) = Ok c /\ m1 = ps al PHI c m.
Proof. unfold poisson_grid, charge_density. destruct (o_poisson_grid o _) as [c| | |]; cbn [bind]; try discriminate. intros H. exists c. split; congruence. Qed.
Lemma polar_inv m m1 : polar_values al o m = Ok m1 -> exists c, o_polar o (gs al PHI_COEF m) = Ok c /\ m1 = ps al PHI c m.
Proof. unfold polar_values. destruct (o_polar o _) as [c| | |]; cbn [bind]; try discriminate. intros H. exists c. split; congruence. Qed.
Lemma field_inv d m m1 : field_finder al o d m = Ok m1 -> exists c, o_field o (gs al PHI_COEF_HOST m) = Ok c /\ m1 = pv al d c m.
Proof. unfold field_finder. destruct (o_field o _) as [c| | |]; cbn [bind]; try discriminate. intros H. exists c. split; congruence. Qed.
Lemma advect_inv s v dt m m1 : advect al o s v dt m = Ok m1 -> exists c, o_advect o (gs al s m) (gv al v m) dt = Ok c /\ m1 = ps al s c m.
Proof. unfold advect. destruct (o_advect o _ _ _) as [c| | |]; cbn [bind]; try discriminate. intros H. exists c. split; congruence. Qed.
Lemma feet_inv v dt m m1 : find_feet al o v dt m = Ok m1 -> exists c, o_feet o (gv al FEET m) (gv al v m) dt = Ok c /\ m1 = pv al FEET c m.
Proof. unfold find_feet. destruct (o_feet o _ _ _) as [c| | |]; cbn [bind]; try discriminate. intros H. exists c. split; congruence. Qed.
Lemma bfield_inv v m m1 : build_field al o v m = Ok m1 -> exists cx cy, o_build o (map fst (gv al v m)) = Ok cx /\ o_build o (map snd (gv al v m)) = Ok cy /\ m1 = ps al COEFS_Y cy (ps al COEFS_X cx m).
Proof.
  unfold build_field. destruct (o_build o (map fst (gv al v m))) as [cx| | |]; cbn [bind]; try discriminate. rewrite gv_ps.
  destruct (o_build o (map snd (gv al v m))) as [cy| | |]; cbn [bind]; try discriminate. intros H. exists cx, cy. repeat split; congruence.
Qed.
Lemma efield_inv d m m1 : at_v al d <> at_v al FEET -> eval_field al o d m = Ok m1 -> exists vx vy, o_eval o (gs al COEFS_X m) (gv al FEET m) = Ok vx /\ o_eval o (gs al COEFS_Y m) (gv al FEET m) = Ok vy /\
  exists w, m1 = pv al d (combine vx vy) (pv al d w m).
Proof.
  intros N. unfold eval_field. destruct (o_eval o (gs al COEFS_X m) (gv al FEET m)) as [vx| | |]; cbn [bind]; try discriminate.
  set (w := combine vx (map snd (gv al d m))). rewrite gs_pv, gv_pv. destruct (vbuf_beq (at_v al FEET) (at_v al d)) eqn:Q.
  { apply internal_vbuf_dec_bl in Q. congruence. }
  destruct (o_eval o (gs al COEFS_Y m) (gv al FEET m)) as [vy| | |]; cbn [bind]; try discriminate. intros H. exists vx, vy. repeat split; auto. exists w. congruence.
Qed.
End Commands.
Ltac inv E := let c := fresh "c" in let d := fresh "d" in let X := fresh "X" in let X' := fresh "X" in let Y := fresh "Y" in let w := fresh "w" in
  match type of E with
  | build _ _ _ _ _ = _ => apply build_inv in E; destruct E as (c & X & Y)
  | poisson_coef _ _ _ = _ => apply pcoef_inv in E; destruct E as (c & X & Y)
  | poisson_grid _ _ _ = _ => apply pgrid_inv in E; destruct E as (c & X & Y)
  | polar_values _ _ _ = _ => apply polar_inv in E; destruct E as (c & X & Y)
  | field_finder _ _ _ _ = _ => apply field_inv in E; destruct E as (c & X & Y)
  | advect _ _ _ _ _ _ = _ => apply advect_inv in E; destruct E as (c & X & Y)
  | find_feet _ _ _ _ _ = _ => apply feet_inv in E; destruct E as (c & X & Y)
  | build_field _ _ _ _ = _ => apply bfield_inv in E; destruct E as (c & d & X & X' & Y); mem_in X'
  | eval_field _ _ _ _ = _ => apply efield_inv in E; [|discriminate]; destruct E as (c & d & X & X' & w & Y); mem_in X'
  end; mem_in X; subst.
Lemma bind_assoc {A B C} (x : res A) (f : A -> res B) (g : B -> res C) : bind (bind x f) g = bind x (fun y => bind (f y) g).
Proof. destruct x; reflexivity. Qed.
Ltac run H := repeat match type of H with
  | bind (bind _ _) _ = Ok _ => rewrite bind_assoc in H; cbn [bind] in H
  | bind ?x _ = Ok _ => let E := fresh "E" in destruct x eqn:E; cbn [bind] in H; [inv E|discriminate H|discriminate H|discriminate H]
  end; try inv H.

Lemma mean_ok A B : vhalf (vadd A B) = mean A B.
Proof. unfold vhalf, vadd, mean. rewrite map_map. reflexivity. Qed.


(** ** Loops *)
Section Loops.
Context (al : alias) (body : Z -> mem -> res mem) (step : list R -> list R -> Prop) (EV : Z -> list R -> list R -> event -> Prop)
  (h : list R -> list R -> list R).
Let D := gs al DENSITY.
Definition sound_body : Prop := forall iter m m', body iter m = Ok m' ->
  step (D m) (D m') /\ gs al DENSITY_HOST m' = h (D m) (D m') /\ exists e, EV iter (D m) (D m') e /\ m_events m' = m_events m ++ [e].
Lemma loop_sound n iter m m' : sound_body -> loop_from body n iter m = Ok m' ->
  exists ds evs, trajectory step n (D m) ds /\ D m' = ds n /\ m_events m' = m_events m ++ evs /\ length evs = n /\
    (forall i, (i < n)%nat -> exists e, nth_error evs i = Some e /\ EV (iter + Z.of_nat i) (ds i) (ds (S i)) e) /\
    gs al DENSITY_HOST m' = match n with O => gs al DENSITY_HOST m | S k => h (ds k) (ds n) end.
Proof.
  intros HB. revert iter m. induction n as [|n IH]; intros iter m; cbn [loop_from].
  - intros H. assert (E : m = m') by congruence. subst m'. exists (fun _ => D m), []. rewrite app_nil_r.
    split; [split; [reflexivity|lia]|]. split; [reflexivity|]. split; [reflexivity|]. split; [reflexivity|]. split; [lia|reflexivity].
  - destruct (body iter m) as [m1| | |] eqn:E; cbn [bind]; try discriminate. intros H.
    destruct (HB _ _ _ E) as (S1 & H1 & e & V1 & L1). destruct (IH _ _ H) as (ds & evs & [T0 T] & HD & HE & HL & HV & HH).
    exists (fun i => match i with O => D m | S k => ds k end), (e :: evs).
    split. { split; [reflexivity|]. intros [|i] Hi; [rewrite T0; exact S1|apply T; lia]. }
    split; [exact HD|]. split. { rewrite HE, L1, <- app_assoc. reflexivity. }
    split; [cbn; rewrite HL; reflexivity|]. split.
    + intros [|i] Hi; cbn [nth_error].
      * exists e. split; [reflexivity|]. rewrite T0. replace (iter + Z.of_nat 0)%Z with iter by lia. exact V1.
      * destruct (HV i ltac:(lia)) as (e' & N & V). exists e'. split; [exact N|]. replace (iter + Z.of_nat (S i))%Z with (iter + 1 + Z.of_nat i)%Z by lia. exact V.
    + rewrite HH. destruct n as [|n]; [|reflexivity]. rewrite H1, T0. reflexivity.
Qed.
Lemma loop_complete (ok : list R -> list R -> Prop) n iter m ds : sound_body -> (forall a b c, step a b -> step a c -> b = c) ->
  (forall iter m rho', step (D m) rho' -> ok (D m) rho' -> exists m', body iter m = Ok m') ->
  trajectory step n (D m) ds -> (forall i, (i < n)%nat -> ok (ds i) (ds (S i))) ->
  exists m', loop_from body n iter m = Ok m' /\ D m' = ds n.
Proof.
  intros HB HF HC. revert iter m ds. induction n as [|n IH]; intros iter m ds [T0 T] HO; cbn [loop_from].
  - exists m. split; [reflexivity|]. rewrite T0. reflexivity.
  - assert (S1 : step (D m) (ds 1%nat)) by (rewrite <- T0; apply T; lia).
    destruct (HC iter m (ds 1%nat) S1) as [m1 E]. { rewrite <- T0. apply HO. lia. }
    rewrite E. cbn [bind]. destruct (HB _ _ _ E) as (S2 & _). assert (E1 : D m1 = ds 1%nat) by (eapply HF; eassumption).
    apply (IH _ m1 (fun i => ds (S i))).
    + split; [symmetry; exact E1|]. intros i Hi. apply T. lia.
    + intros i Hi. apply HO. lia.
Qed.
End Loops.
Lemma traj_unique (step : list R -> list R -> Prop) n rho ds ds' : (forall a b c, step a b -> step a c -> b = c) -> trajectory step n rho ds -> trajectory step n rho ds' ->
  forall i, (i <= n)%nat -> ds i = ds' i.
Proof.
  intros HF [A B] [A' B'] i. induction i as [|i IH]; intros Hi; [congruence|].
  apply (HF (ds i)); [apply B; lia|]. rewrite IH by lia. apply B'. lia.
Qed.

(** ** The ingredients are functions *)
Lemma potential_fun o rho a b : potential_of o rho a -> potential_of o rho b -> a = b.
Proof. intros (c & H1 & H2) (c' & H1' & H2'). congruence. Qed.
Lemma grid_fun o rho a b : grid_potential o rho a -> grid_potential o rho b -> a = b.
Proof. intros (c & H1 & H2) (c' & H1' & H2'). congruence. Qed.
Lemma polar_fun o rho a b : polar_potential_of o rho a -> polar_potential_of o rho b -> a = b.
Proof. intros (c & H1 & H2) (c' & H1' & H2'). rewrite (potential_fun _ _ _ _ H1 H1') in *. congruence. Qed.
Lemma field_fun o rho a b : field_of o rho a -> field_of o rho b -> a = b.
Proof. intros (c & H1 & H2) (c' & H1' & H2'). rewrite (potential_fun _ _ _ _ H1 H1') in *. congruence. Qed.
Lemma field_at_fun o A X a b : field_at o A X a -> field_at o A X b -> a = b.
Proof. intros (c & d & e & f & H1 & H2 & H3 & H4 & H5) (c' & d' & e' & f' & H1' & H2' & H3' & H4' & H5'). congruence. Qed.
Lemma explicit_fun w o dt a b c : explicit_step w o dt a b -> explicit_step w o dt a c -> b = c.
Proof.
  intros (A & rP & XP & AP & B & H1 & H2 & H3 & H4 & H5 & H6) (A' & rP' & XP' & AP' & B' & H1' & H2' & H3' & H4' & H5' & H6').
  assert (A' = A) by (eapply field_fun; eassumption). subst A'. assert (rP' = rP) by congruence. subst rP'. assert (XP' = XP) by congruence. subst XP'.
  assert (AP' = AP) by (eapply field_fun; eassumption). subst AP'. assert (B' = B) by (eapply field_at_fun; eassumption). subst B'. congruence.
Qed.
Lemma midpoint_fun o dt a b c : midpoint_step o dt a b -> midpoint_step o dt a c -> b = c.
Proof.
  intros (A & rP & AP & H1 & H2 & H3 & H4) (A' & rP' & AP' & H1' & H2' & H3' & H4').
  assert (A' = A) by (eapply field_fun; eassumption). subst A'. assert (rP' = rP) by congruence. subst rP'.
  assert (AP' = AP) by (eapply field_fun; eassumption). subst AP'. congruence.
Qed.

(** ** Explicit *)
Lemma ex_body_sound o shared dt : sound_body (alias_ex shared) (ex_body o shared dt) (explicit_code o dt)
  (fun iter rho _ e => is_event e false iter (IZR iter * dt) rho (polar_potential_of o rho)) (fun a b => if shared then b else a).
Proof.
  intros iter [ms mv me] m' H. unfold ex_body in H. destruct shared.
  - run H. mem. repeat rewrite mean_ok in *. split; [|split; [reflexivity|]].
    + do 5 eexists. split; [do 1 eexists; split; [eexists; split; eassumption|eassumption]|]. split; [eassumption|]. split; [eassumption|].
      split; [eexists; split; [eexists; split; eassumption|eassumption]|]. split; [do 4 eexists; repeat split; eassumption|eassumption].
    + eexists. split; [|reflexivity]. repeat split. cbn. eexists. split; [eexists; split; eassumption|eassumption].
  - run H. mem. repeat rewrite mean_ok in *. split; [|split; [reflexivity|]].
    + do 5 eexists. split; [do 1 eexists; split; [eexists; split; eassumption|eassumption]|]. split; [eassumption|]. split; [eassumption|].
      split; [eexists; split; [eexists; split; eassumption|eassumption]|]. split; [do 4 eexists; repeat split; eassumption|eassumption].
    + eexists. split; [|reflexivity]. repeat split. cbn. eexists. split; [eexists; split; eassumption|eassumption].
Qed.
Ltac exec := unfold build, poisson_coef, poisson_grid, polar_values, field_finder, advect, find_feet, build_field, eval_field, charge_density; mem;
  repeat match goal with
  | |- context [bind (bind _ _) _] => rewrite bind_assoc; cbn [bind]
  | X : ?t = Ok _ |- context [bind ?t _] => rewrite X; cbn [bind]; mem end.
Lemma ex_body_total o shared dt iter m rho' : explicit_code o dt (gs (alias_ex shared) DENSITY m) rho' ->
  (exists phi, polar_potential_of o (gs (alias_ex shared) DENSITY m) phi) -> exists m', ex_body o shared dt iter m = Ok m'.
Proof.
  destruct m as [ms mv me]. intros (A & rP & XP & AP & B & (c & (c1 & H1 & H2) & H3) & H4 & H5 & (c' & (c1' & H1' & H2') & H3') & (cx & cy & bx & by_ & H6 & H7 & H8 & H9 & ->) & H10)
    (phi & d & (d1 & G1 & G2) & G3).
  assert (d1 = c1) by congruence. subst d1. assert (d = c) by congruence. subst d. rewrite <- mean_ok in H10. unfold ex_body.
  destruct shared; mem_in H1; mem_in H2; mem_in H4; mem_in H10; exec; eauto.
Qed.
Lemma explicit_sound o shared dt steps m rho m' : given m rho -> explicit_predcorr o shared dt steps m = Ok m' ->
  exists ds, trajectory (explicit_code o dt) (count steps) rho ds /\ m_s m' DENSITY_HOST = ds (count steps) /\
    length (m_events m') = S (count steps) /\
    (forall k, (k < count steps)%nat -> exists e, nth_error (m_events m') k = Some e /\
       is_event e false (Z.of_nat k) (INR k * dt) (ds k) (polar_potential_of o (ds k))) /\
    exists e, nth_error (m_events m') (count steps) = Some e /\
       is_event e true steps (IZR steps * dt) (ds (count steps)) (grid_potential o (ds (count steps))).
Proof.
  intros [G1 G2] H. unfold explicit_predcorr in H. 
  destruct (loop (ex_body o shared dt) steps (copy_s (alias_ex shared) DENSITY DENSITY_HOST m)) as [m1| | |] eqn:E; cbn [bind] in H; try discriminate.
  unfold loop in E. apply (loop_sound (alias_ex shared) _ _ _ _ _ _ _ _ (ex_body_sound o shared dt)) in E.
  destruct E as (ds & evs & T & HD & HE & HL & HV & _). 
  assert (D0 : gs (alias_ex shared) DENSITY (copy_s (alias_ex shared) DENSITY DENSITY_HOST m) = rho) by (rewrite <- G1; destruct shared; reflexivity).
  assert (E0 : m_events (copy_s (alias_ex shared) DENSITY DENSITY_HOST m) = []) by (rewrite <- G2; reflexivity).
  rewrite D0 in T. rewrite E0 in HE. cbn [app] in HE. exists ds. split; [exact T|].
  assert (HD' : gs (alias_ex shared) DENSITY m1 = ds (count steps)) by exact HD. clear HD. destruct m1 as [ms mv me]. cbn [m_events] in HE. subst me.
  assert (X : forall n (e : event), length evs = n -> nth_error (evs ++ [e]) n = Some e) by (intros n e <-; rewrite (nth_error_app2 evs [e] (le_n (length evs))), Nat.sub_diag; reflexivity).
  assert (Y : forall k (e : event), (k < count steps)%nat -> nth_error (evs ++ [e]) k = nth_error evs k) by (intros k e Hk; apply nth_error_app1; rewrite HL; exact Hk).
  destruct shared; run H; mem_in HD'; 
    match type of H with Ok ?t = Ok m' => assert (HM : m' = t) by congruence; clear H end; rewrite HM; clear HM; mem.
  - split; [exact HD'|]. split; [rewrite app_length, HL; cbn [length]; rewrite Nat.add_1_r; reflexivity|]. split.
    + intros k Hk. rewrite Y by exact Hk. destruct (HV k Hk) as (e & N & V). exists e. split; [exact N|]. rewrite INR_IZR_INZ. exact V.
    + eexists. split; [apply X; exact HL|]. repeat split; cbn; auto. rewrite <- HD'. eexists. split; eassumption.
  - split; [exact HD'|]. split; [rewrite app_length, HL; cbn [length]; rewrite Nat.add_1_r; reflexivity|]. split.
    + intros k Hk. rewrite Y by exact Hk. destruct (HV k Hk) as (e & N & V). exists e. split; [exact N|]. rewrite INR_IZR_INZ. exact V.
    + eexists. split; [apply X; exact HL|]. repeat split; cbn; auto. rewrite <- HD'. eexists. split; eassumption.
Qed.
Lemma explicit_complete o shared dt steps m rho ds : given m rho -> trajectory (explicit_code o dt) (count steps) rho ds ->
  (forall k, (k < count steps)%nat -> exists phi, polar_potential_of o (ds k) phi) -> (exists phi, grid_potential o (ds (count steps)) phi) ->
  exists m', explicit_predcorr o shared dt steps m = Ok m'.
Proof.
  intros [G1 G2] T HP [phi (c & HG1 & HG2)]. unfold explicit_predcorr.
  assert (D0 : gs (alias_ex shared) DENSITY (copy_s (alias_ex shared) DENSITY DENSITY_HOST m) = rho) by (rewrite <- G1; destruct shared; reflexivity).
  rewrite <- D0 in T.
  destruct (loop_complete _ _ _ _ _ (fun r _ => exists phi, polar_potential_of o r phi) (count steps) 0 _ ds (ex_body_sound o shared dt)
    (explicit_fun _ o dt) (fun iter m rho' S O => ex_body_total o shared dt iter m rho' S O) T HP) as (m1 & E & HD).
  unfold loop. change (Z.to_nat steps) with (count steps). rewrite E. cbn [bind]. rewrite <- HD in HG1. clear E HD T. destruct m1 as [ms mv me].
  destruct shared; mem_in HG1; exec; eauto.
Qed.

(** ** RK2 *)
Lemma half_dt dt : 1 / 2 * dt = dt / 2. Proof. field. Qed.
Lemma pc_body_sound o shared dt : sound_body (alias_pc shared) (pc_body o shared dt) (midpoint_step o dt)
  (fun iter _ rho e => is_event e false (iter + 1) (IZR iter * dt) rho (grid_potential o rho)) (fun a b => b).
Proof.
  intros iter [ms mv me] m' H. unfold pc_body, pc_rk2, pc_field in H. rewrite half_dt in H.
  destruct shared; run H; match type of H with Ok ?t = Ok m' => assert (HM : m' = t) by congruence; clear H end; rewrite HM; clear HM; mem.
  - split; [|split; [reflexivity|]].
    + do 3 eexists. split; [eexists; split; [eexists; split; eassumption|eassumption]|]. split; [eassumption|].
      split; [eexists; split; [eexists; split; eassumption|eassumption]|eassumption].
    + eexists. split; [|reflexivity]. repeat split. cbn. eexists. split; eassumption.
  - split; [|split; [reflexivity|]].
    + do 3 eexists. split; [eexists; split; [eexists; split; eassumption|eassumption]|]. split; [eassumption|].
      split; [eexists; split; [eexists; split; eassumption|eassumption]|eassumption].
    + eexists. split; [|reflexivity]. repeat split. cbn. eexists. split; eassumption.
Qed.
Lemma pc_body_total o shared dt iter m rho' : midpoint_step o dt (gs (alias_pc shared) DENSITY m) rho' ->
  (exists phi, grid_potential o rho' phi) -> exists m', pc_body o shared dt iter m = Ok m'.
Proof.
  destruct m as [ms mv me]. intros (A & rP & AP & (c & (c1 & H1 & H2) & H3) & H4 & (c' & (c1' & H1' & H2') & H3') & H5) (phi & d & G1 & G2).
  unfold pc_body, pc_rk2, pc_field. rewrite half_dt.
  destruct shared; mem_in H1; mem_in H4; mem_in H5; exec; eauto.
Qed.
Lemma predcorr_sound o shared dt steps m rho m' : given m rho -> predcorr o shared dt steps m = Ok m' ->
  exists ds, trajectory (midpoint_step o dt) (count steps) rho ds /\ m_s m' DENSITY_HOST = ds (count steps) /\
    length (m_events m') = S (count steps) /\
    (exists e, nth_error (m_events m') 0 = Some e /\ is_event e false 0 0 rho (grid_potential o rho)) /\
    forall k, (k < count steps)%nat -> exists e, nth_error (m_events m') (S k) = Some e /\
       is_event e false (Z.of_nat (S k)) (INR k * dt) (ds (S k)) (grid_potential o (ds (S k))).
Proof.
  intros [G1 G2] H. unfold predcorr in H. destruct m as [ms mv me]. cbn in G1, G2. subst me.
  set (al := alias_pc shared) in *.
  set (m0 := copy_s al DENSITY DENSITY_HOST {| m_s := ms; m_v := mv; m_events := [] |}) in *.
  assert (D0 : gs al DENSITY m0 = rho) by (rewrite <- G1; unfold al; destruct shared; reflexivity).
  assert (H0 : gs al DENSITY_HOST m0 = rho) by (rewrite <- G1; unfold al; destruct shared; reflexivity).
  destruct (build al o DENSITY_COEF DENSITY m0) as [m1| | |] eqn:E1; cbn [bind] in H; try discriminate. apply build_inv in E1. destruct E1 as (c & X1 & ->).
  destruct (poisson_grid al o _) as [m1| | |] eqn:E2 in H; cbn [bind] in H; try discriminate. apply pgrid_inv in E2. destruct E2 as (phi & X2 & ->).
  rewrite D0 in X1. assert (X2' : o_poisson_grid o (o_value o c) = Ok phi) by (rewrite <- X2; unfold al; destruct shared; reflexivity).
  unfold loop in H. apply (loop_sound al _ _ _ _ _ _ _ _ (pc_body_sound o shared dt)) in H.
  destruct H as (ds & evs & T & HD & HE & HL & HV & HH).
  match type of T with trajectory _ _ (gs _ _ ?t) _ => assert (D1 : gs al DENSITY t = rho); [|assert (H1 : gs al DENSITY_HOST t = rho)] end.
  { rewrite <- D0. unfold al. destruct shared; reflexivity. }
  { rewrite <- H0. unfold al. destruct shared; reflexivity. }
  rewrite D1 in T. exists ds. split; [exact T|].
  assert (HS : m_s m' DENSITY_HOST = gs al DENSITY_HOST m') by (unfold al; destruct shared; reflexivity).
  split. { rewrite HS, HH. unfold count. destruct (Z.to_nat steps) eqn:N; [|reflexivity]. rewrite H1. symmetry. apply T. }
  rewrite HE. match goal with |- context [m_events (publish ?a ?b ?c ?d ?e)] => change (m_events (publish a b c d e)) with [{| ev_last := b; ev_iter := c; ev_time := d; ev_density := gs al DENSITY_HOST e; ev_potential := gs al PHI_HOST e |}] end.
  cbn [app length nth_error]. split; [rewrite HL; reflexivity|]. split.
  - eexists. split; [reflexivity|]. split; [reflexivity|]. split; [reflexivity|]. split; [reflexivity|]. split; [exact H1|].
    exists c. split; [exact X1|]. rewrite X2'. f_equal. unfold al. cbn [ev_potential]. destruct shared; reflexivity.
  - intros k Hk. destruct (HV k Hk) as (e & N & V). exists e. split; [exact N|]. rewrite INR_IZR_INZ. replace (Z.of_nat (S k)) with (0 + Z.of_nat k + 1)%Z by lia. exact V.
Qed.
Lemma predcorr_complete o shared dt steps m rho ds : given m rho -> trajectory (midpoint_step o dt) (count steps) rho ds ->
  (forall k, (k <= count steps)%nat -> exists phi, grid_potential o (ds k) phi) -> exists m', predcorr o shared dt steps m = Ok m'.
Proof.
  intros [G1 G2] T HP. destruct (HP 0%nat ltac:(lia)) as (phi & c & HG1 & HG2). rewrite (proj1 T) in HG1. unfold predcorr. destruct m as [ms mv me]. cbn in G1. subst rho.
  match goal with |- exists m', ?t = Ok m' => assert (B : exists m1, t = loop (pc_body o shared dt) steps m1 /\ gs (alias_pc shared) DENSITY m1 = ms DENSITY_HOST) end.
  { destruct shared; exec; eexists; (split; [reflexivity|reflexivity]). }
  destruct B as (m1 & -> & D1). rewrite <- D1 in T.
  destruct (loop_complete _ _ _ _ _ (fun _ r => exists phi, grid_potential o r phi) (count steps) 0 _ ds (pc_body_sound o shared dt)
    (midpoint_fun o dt) (fun iter m rho' S O => pc_body_total o shared dt iter m rho' S O) T (fun i Hi => HP (S i) Hi)) as (m2 & E & _).
  exists m2. exact E.
Qed.
