(** Proofs of C82 and C83. *)
From Verif Require Import Lib DerivModel DerivRanges FemMain MathModel MathSpec MappingModel MappingSpec MappingVec DiffOpSpec DiffOpChain PpfSpec AdfModel AdfSpec.
Open Scope R_scope.

(** ** 2 x 2 algebra *)
Lemma inv2 K J : inverse_of 2 K J ->
  K 0%nat 0%nat * J 0%nat 0%nat + K 0%nat 1%nat * J 1%nat 0%nat = 1 /\ K 0%nat 0%nat * J 0%nat 1%nat + K 0%nat 1%nat * J 1%nat 1%nat = 0 /\
  K 1%nat 0%nat * J 0%nat 0%nat + K 1%nat 1%nat * J 1%nat 0%nat = 0 /\ K 1%nat 0%nat * J 0%nat 1%nat + K 1%nat 1%nat * J 1%nat 1%nat = 1 /\
  J 0%nat 0%nat * K 0%nat 0%nat + J 0%nat 1%nat * K 1%nat 0%nat = 1 /\ J 0%nat 0%nat * K 0%nat 1%nat + J 0%nat 1%nat * K 1%nat 1%nat = 0 /\
  J 1%nat 0%nat * K 0%nat 0%nat + J 1%nat 1%nat * K 1%nat 0%nat = 0 /\ J 1%nat 0%nat * K 0%nat 1%nat + J 1%nat 1%nat * K 1%nat 1%nat = 1.
Proof.
  intros [L R]. 
  pose proof (L 0%nat 0%nat ltac:(lia) ltac:(lia)) as L00. pose proof (L 0%nat 1%nat ltac:(lia) ltac:(lia)) as L01.
  pose proof (L 1%nat 0%nat ltac:(lia) ltac:(lia)) as L10. pose proof (L 1%nat 1%nat ltac:(lia) ltac:(lia)) as L11.
  pose proof (R 0%nat 0%nat ltac:(lia) ltac:(lia)) as R00. pose proof (R 0%nat 1%nat ltac:(lia) ltac:(lia)) as R01.
  pose proof (R 1%nat 0%nat ltac:(lia) ltac:(lia)) as R10. pose proof (R 1%nat 1%nat ltac:(lia) ltac:(lia)) as R11.
  cbv [mmul] in *. cbn in *. lra.
Qed.
(** the transposed inverse solves the chain rule *)
Lemma pull_back_gradient m r th K dr dt : inverse_of 2 K (m_J m (c2 r th)) ->
  cartesian_gradient m r th dr dt (fst (pull_back K dr dt)) (snd (pull_back K dr dt)).
Proof.
  intros HI. destruct (inv2 _ _ HI) as (a & b & c & d & e & f & g & h). unfold cartesian_gradient, pull_back. cbn.
  set (J := m_J m (c2 r th)) in *. split.
  - transitivity (dr * (K 0%nat 0%nat * J 0%nat 0%nat + K 0%nat 1%nat * J 1%nat 0%nat) + dt * (K 1%nat 0%nat * J 0%nat 0%nat + K 1%nat 1%nat * J 1%nat 0%nat)); [rewrite a, c; ring|ring].
  - transitivity (dr * (K 0%nat 0%nat * J 0%nat 1%nat + K 0%nat 1%nat * J 1%nat 1%nat) + dt * (K 1%nat 0%nat * J 0%nat 1%nat + K 1%nat 1%nat * J 1%nat 1%nat)); [rewrite b, d; ring|ring].
Qed.
Lemma gradient_unique m r th dr dt g g' : invertible_at 2 m (c2 r th) ->
  cartesian_gradient m r th dr dt (fst g) (snd g) -> cartesian_gradient m r th dr dt (fst g') (snd g') -> g = g'.
Proof.
  intros (K & _ & HI) [A B] [A' B']. destruct (inv2 _ _ HI) as (a & b & c & d & e & f & h & i).
  set (J := m_J m (c2 r th)) in *. destruct g as [x y], g' as [x' y']. cbn [fst snd] in *.
  assert (X : J 0%nat 0%nat * (x - x') + J 1%nat 0%nat * (y - y') = 0) by lra.
  assert (Y : J 0%nat 1%nat * (x - x') + J 1%nat 1%nat * (y - y') = 0) by lra.
  assert (x - x' = 0).
  { transitivity ((J 0%nat 0%nat * K 0%nat 0%nat + J 0%nat 1%nat * K 1%nat 0%nat) * (x - x') + (J 1%nat 0%nat * K 0%nat 0%nat + J 1%nat 1%nat * K 1%nat 0%nat) * (y - y')).
    - rewrite e, h. ring.
    - transitivity (K 0%nat 0%nat * (J 0%nat 0%nat * (x - x') + J 1%nat 0%nat * (y - y')) + K 1%nat 0%nat * (J 0%nat 1%nat * (x - x') + J 1%nat 1%nat * (y - y'))); [ring|rewrite X, Y; ring]. }
  assert (y - y' = 0).
  { transitivity ((J 0%nat 0%nat * K 0%nat 1%nat + J 0%nat 1%nat * K 1%nat 1%nat) * (x - x') + (J 1%nat 0%nat * K 0%nat 1%nat + J 1%nat 1%nat * K 1%nat 1%nat) * (y - y')).
    - rewrite f, i. ring.
    - transitivity (K 0%nat 1%nat * (J 0%nat 0%nat * (x - x') + J 1%nat 0%nat * (y - y')) + K 1%nat 1%nat * (J 0%nat 1%nat * (x - x') + J 1%nat 1%nat * (y - y'))); [ring|rewrite X, Y; ring]. }
  f_equal; lra.
Qed.

(** ** The centre *)
Lemma directions_det m : directions m -> exists x1 y1 x2 y2, m_Jc m 0 0 (c2 0 th1) = Ok x1 /\ m_Jc m 1 0 (c2 0 th1) = Ok y1 /\
    m_Jc m 0 0 (c2 0 th2) = Ok x2 /\ m_Jc m 1 0 (c2 0 th2) = Ok y2 /\ x1 * y2 - x2 * y1 <> 0.
Proof. exact (fun H => H). Qed.
Lemma centre_ok m ph g : directions m -> centre_gradient m ph = Ok g -> pole_slope m ph g th1 /\ pole_slope m ph g th2.
Proof.
  intros HD. destruct (directions_det m HD) as (x1 & y1 & x2 & y2 & A & B & C & D & N).
  unfold centre_gradient. rewrite A. cbn [bind]. rewrite B. cbn [bind]. rewrite C. cbn [bind]. rewrite D. cbn [bind].
  destruct (ph_r ph 0 th1) as [p1| | |] eqn:E1; cbn [bind]; try discriminate.
  destruct (ph_r ph 0 th2) as [p2| | |] eqn:E2; cbn [bind]; try discriminate.
  intros [= <-]. split.
  - exists x1, y1, p1. split; [exact A|]. split; [exact B|]. split; [exact E1|]. cbn [fst snd]. field. exact N.
  - exists x2, y2, p2. split; [exact C|]. split; [exact D|]. split; [exact E2|]. cbn [fst snd]. field. exact N.
Qed.
Lemma centre_total m ph d1 d2 : directions m -> ph_r ph 0 th1 = Ok d1 -> ph_r ph 0 th2 = Ok d2 -> exists g, centre_gradient m ph = Ok g.
Proof.
  intros HD E1 E2. destruct (directions_det m HD) as (x1 & y1 & x2 & y2 & A & B & C & D & N).
  unfold centre_gradient. rewrite A. cbn [bind]. rewrite B. cbn [bind]. rewrite C. cbn [bind]. rewrite D. cbn [bind].
  rewrite E1. cbn [bind]. rewrite E2. cbn [bind]. eauto.
Qed.
Lemma pole_unique m ph g g' : directions m -> pole_slope m ph g th1 -> pole_slope m ph g th2 -> pole_slope m ph g' th1 -> pole_slope m ph g' th2 -> g = g'.
Proof.
  intros HD. destruct (directions_det m HD) as (x1 & y1 & x2 & y2 & A & B & C & D & N).
  intros (a & b & c & E1 & E2 & E3 & E4) (a' & b' & c' & E1' & E2' & E3' & E4') (h & k & l & F1 & F2 & F3 & F4) (h' & k' & l' & F1' & F2' & F3' & F4').
  rewrite A in E1, F1. rewrite B in E2, F2. rewrite C in E1', F1'. rewrite D in E2', F2'. rewrite E3 in F3. rewrite E3' in F3'.
  injection E1 as <-. injection E2 as <-. injection E1' as <-. injection E2' as <-.
  injection F1 as <-. injection F2 as <-. injection F1' as <-. injection F2' as <-. injection F3 as <-. injection F3' as <-.
  destruct g as [x y], g' as [x' y']. cbn [fst snd] in *.
  assert (X : (x - x') * x1 + (y - y') * y1 = 0) by lra. assert (Y : (x - x') * x2 + (y - y') * y2 = 0) by lra.
  assert (P : (x1 * y2 - x2 * y1) * (x - x') = 0).
  { transitivity (((x - x') * x1 + (y - y') * y1) * y2 - ((x - x') * x2 + (y - y') * y2) * y1); [ring|rewrite X, Y; ring]. }
  assert (Q : (x1 * y2 - x2 * y1) * (y - y') = 0).
  { transitivity (((x - x') * x2 + (y - y') * y2) * x1 - ((x - x') * x1 + (y - y') * y1) * x2); [ring|rewrite X, Y; ring]. }
  apply Rmult_integral in P. apply Rmult_integral in Q. f_equal; lra.
Qed.

(** ** Grids *)
Lemma combine_nth' {A B} (l : list A) (l' : list B) k a b : nth_error l k = Some a -> nth_error l' k = Some b -> nth_error (combine l l') k = Some (a, b).
Proof.
  revert l' k. induction l as [|x l IH]; intros [|y l'] [|k]; cbn; try discriminate.
  - intros [= ->] [= ->]. reflexivity.
  - apply IH.
Qed.
Lemma map_res_nth_error {A B} (g : A -> res B) l ys : map_res g l = Ok ys -> length ys = length l /\
  forall k x, nth_error l k = Some x -> exists y, g x = Ok y /\ nth_error ys k = Some y.
Proof.
  revert ys. induction l as [|x l IH]; intros ys; cbn [map_res].
  - intros [= <-]. split; [reflexivity|]. intros [|k] x; discriminate.
  - destruct (g x) as [y| | |] eqn:E; cbn [bind]; try discriminate. destruct (map_res g l) as [zs| | |]; cbn [bind]; try discriminate.
    intros [= <-]. destruct (IH zs eq_refl) as [L N]. split; [cbn; rewrite L; reflexivity|].
    intros [|k] x0; cbn; [intros [= <-]; eauto|apply N].
Qed.
(** the common shape of both operators *)
Lemma field_points (ph : potential) (f : (R * R) * (R * R) -> res (R * R)) grid out :
  (let* deriv_r := map_res (fun p => ph_r ph (fst p) (snd p)) grid in
   let* deriv_t := map_res (fun p => ph_t ph (fst p) (snd p)) grid in
   map_res f (combine grid (combine deriv_r deriv_t))) = Ok out ->
  length out = length grid /\ forall k r th, nth_error grid k = Some (r, th) ->
    exists dr dt v, slopes ph r th dr dt /\ f ((r, th), (dr, dt)) = Ok v /\ nth_error out k = Some v.
Proof.
  destruct (map_res (fun p => ph_r ph (fst p) (snd p)) grid) as [a| | |] eqn:EA; cbn [bind]; try discriminate.
  destruct (map_res (fun p => ph_t ph (fst p) (snd p)) grid) as [b| | |] eqn:EB; cbn [bind]; try discriminate.
  intros EC. apply map_res_nth_error in EA, EB, EC. destruct EA as [LA NA], EB as [LB NB], EC as [LC NC].
  split. { rewrite LC, combine_length, combine_length, LA, LB. rewrite !Nat.min_id. reflexivity. }
  intros k r th E. destruct (NA k _ E) as (dr & E1 & N1). destruct (NB k _ E) as (dt & E2 & N2).
  destruct (NC k ((r, th), (dr, dt))) as (v & E3 & N3).
  { apply combine_nth'; [exact E|]. apply combine_nth'; assumption. }
  exists dr, dt, v. split; [split; assumption|]. split; assumption.
Qed.
Lemma field_points_total (ph : potential) (f : (R * R) * (R * R) -> res (R * R)) grid :
  (forall r th, In (r, th) grid -> exists dr dt v, slopes ph r th dr dt /\ f ((r, th), (dr, dt)) = Ok v) ->
  exists out, (let* deriv_r := map_res (fun p => ph_r ph (fst p) (snd p)) grid in
   let* deriv_t := map_res (fun p => ph_t ph (fst p) (snd p)) grid in
   map_res f (combine grid (combine deriv_r deriv_t))) = Ok out.
Proof.
  intros H. destruct (map_res_total (fun p => ph_r ph (fst p) (snd p)) grid) as [a EA].
  { intros [r th] Hi. destruct (H r th Hi) as (dr & dt & v & [S1 S2] & _). eauto. }
  destruct (map_res_total (fun p => ph_t ph (fst p) (snd p)) grid) as [b EB].
  { intros [r th] Hi. destruct (H r th Hi) as (dr & dt & v & [S1 S2] & _). eauto. }
  rewrite EA, EB. cbn [bind]. apply map_res_total. intros [p d] Hi.
  apply map_res_nth_error in EA, EB. destruct EA as [LA NA], EB as [LB NB].
  apply In_nth_error in Hi. destruct Hi as [k Hk].
  assert (exists r th, nth_error grid k = Some (r, th)) as (r & th & Hg).
  { destruct (nth_error grid k) as [[r th]|] eqn:E; [eauto|]. exfalso. apply nth_error_None in E.
    assert (nth_error (combine grid (combine a b)) k = None) by (apply nth_error_None; rewrite combine_length; lia). congruence. }
  destruct (NA k _ Hg) as (dr & E1 & N1). destruct (NB k _ Hg) as (dt & E2 & N2).
  assert (E : nth_error (combine grid (combine a b)) k = Some ((r, th), (dr, dt))) by (apply combine_nth'; [exact Hg|apply combine_nth'; assumption]).
  rewrite Hk in E. injection E as -> ->. destruct (H r th (nth_error_In _ _ Hg)) as (dr' & dt' & v & [S1 S2] & Hv).
  cbn [fst snd] in E1, E2. assert (dr' = dr) by congruence. assert (dt' = dt) by congruence. subst. eauto.
Qed.

(** ** The physical field *)
Definition f_xy (m : mapping) (eps : R) (ph : potential) (q : (R * R) * (R * R)) : res (R * R) :=
  let '(p, d) := q in let* E := electric_field m eps ph (fst p) (snd p) d in Ok (snd E, - fst E).
Lemma field_xy m eps ph grid A : advection_field_xy m eps ph grid = Ok A ->
  length A = length grid /\ forall k r th, nth_error grid k = Some (r, th) ->
    (eps < r -> invertible_at 2 m (c2 r th) -> exists g, gradient_at m ph r th g /\ (forall g', gradient_at m ph r th g' -> g' = g) /\
       nth_error A k = Some (rotated g)) /\
    (r <= eps -> 0 < eps -> directions m -> invertible_at 2 m (c2 eps th) ->
       exists g0 ge, pole_slope m ph g0 (PI / 4) /\ pole_slope m ph g0 (- PI / 4 + 2 * PI) /\ gradient_at m ph eps th ge /\
         nth_error A k = Some (rotated (between (r / eps) g0 ge))).
Proof.
  intros H. destruct (field_points ph (f_xy m eps ph) grid A H) as [L N]. split; [exact L|].
  intros k r th E. destruct (N k r th E) as (dr & dt & v & S & Hv & Nk). rewrite Nk.
  unfold f_xy, electric_field in Hv. cbn [fst snd] in Hv. split.
  - intros Hr (K & EK & HI). destruct (Rlt_dec eps r) as [_|]; [|lra]. rewrite EK in Hv. cbn [bind fst snd] in Hv.
    assert (Ev : v = rotated (pull_back K dr dt)).
    { assert (X := f_equal (fun x => match x with Ok v => v | _ => v end) Hv). cbv beta iota in X. rewrite <- X. unfold rotated. f_equal. ring. }
    pose proof (pull_back_gradient m r th K dr dt HI) as PG.
    exists (pull_back K dr dt). split; [exists dr, dt; split; assumption|]. split.
    + intros g' (dr' & dt' & [S1 S2] & G'). destruct S as [T1 T2]. assert (dr' = dr) by congruence. assert (dt' = dt) by congruence. subst.
      eapply gradient_unique; [exists K; split; eassumption|exact G'|exact PG].
    + rewrite Ev. reflexivity.
  - intros Hr He HD (K & EK & HI). destruct (Rlt_dec eps r) as [|_]; [lra|].
    destruct (centre_gradient m ph) as [g0| | |] eqn:EG; cbn [bind] in Hv; try discriminate.
    rewrite EK in Hv. cbn [bind] in Hv.
    destruct (ph_r ph eps th) as [er| | |] eqn:E1; cbn [bind] in Hv; try discriminate.
    destruct (ph_t ph eps th) as [et| | |] eqn:E2; cbn [bind] in Hv; try discriminate.
    destruct (centre_ok m ph g0 HD EG) as [P1 P2]. exists g0, (pull_back K er et).
    split; [exact P1|]. split; [exact P2|]. split. { exists er, et. split; [split; assumption|]. apply pull_back_gradient. exact HI. }
    assert (X := f_equal (fun x => match x with Ok v => v | _ => v end) Hv). cbv beta iota in X. rewrite <- X. unfold rotated, between, neg2.
    destruct (pull_back K er et) as [gx gy]. destruct g0 as [hx hy]. cbn [fst snd]. f_equal. f_equal; field; lra.
Qed.
Lemma field_xy_total m eps ph grid : 0 < eps ->
  (forall r th, In (r, th) grid -> (exists dr dt, slopes ph r th dr dt) /\
     (eps < r -> invertible_at 2 m (c2 r th)) /\
     (r <= eps -> directions m /\ (exists d, ph_r ph 0 (PI / 4) = Ok d) /\ (exists d, ph_r ph 0 (- PI / 4 + 2 * PI) = Ok d) /\
                  invertible_at 2 m (c2 eps th) /\ exists dr dt, slopes ph eps th dr dt)) ->
  exists A, advection_field_xy m eps ph grid = Ok A.
Proof.
  intros He H. apply (field_points_total ph (f_xy m eps ph)). intros r th Hi. destruct (H r th Hi) as ((dr & dt & S) & H1 & H2).
  exists dr, dt. unfold f_xy, electric_field. cbn [fst snd]. destruct (Rlt_dec eps r) as [Hr|Hr].
  - destruct (H1 Hr) as (K & EK & _). rewrite EK. cbn [bind]. eexists. split; [exact S|reflexivity].
  - destruct (H2 ltac:(lra)) as (HD & [d1 E1] & [d2 E2] & (K & EK & _) & er & et & [S1 S2]).
    destruct (centre_total m ph d1 d2 HD E1 E2) as [g ->]. cbn [bind]. rewrite EK. cbn [bind]. rewrite S1. cbn [bind]. rewrite S2. cbn [bind].
    eexists. split; [exact S|reflexivity].
Qed.

(** ** The contravariant field *)
Definition f_rt (m : mapping) (q : (R * R) * (R * R)) : res (R * R) := let '(p, d) := q in contravariant_field m (fst p) (snd p) d.
Lemma inv_det K J : inverse_of 2 K J -> J 0%nat 0%nat * J 1%nat 1%nat - J 0%nat 1%nat * J 1%nat 0%nat <> 0.
Proof.
  intros HI. destruct (inv2 _ _ HI) as (a & b & c & d & e & f & g & h). intros Z.
  assert (X : (J 0%nat 0%nat * J 1%nat 1%nat - J 0%nat 1%nat * J 1%nat 0%nat) * (K 0%nat 0%nat * K 1%nat 1%nat - K 0%nat 1%nat * K 1%nat 0%nat) = 1).
  { transitivity ((J 0%nat 0%nat * K 0%nat 0%nat + J 0%nat 1%nat * K 1%nat 0%nat) * (J 1%nat 0%nat * K 0%nat 1%nat + J 1%nat 1%nat * K 1%nat 1%nat)
                - (J 0%nat 0%nat * K 0%nat 1%nat + J 0%nat 1%nat * K 1%nat 1%nat) * (J 1%nat 0%nat * K 0%nat 0%nat + J 1%nat 1%nat * K 1%nat 0%nat)); [ring|].
    rewrite e, f, g, h. ring. }
  rewrite Z in X. lra.
Qed.
Lemma metric_cancel K J (u v : R) : inverse_of 2 K J ->
  let G i j := Rsum 2 (fun k => J k i * J k j) in let H i j := Rsum 2 (fun k => K i k * K j k) in
  G 0%nat 0%nat * (H 0%nat 0%nat * u + H 0%nat 1%nat * v) + G 0%nat 1%nat * (H 1%nat 0%nat * u + H 1%nat 1%nat * v) = u /\
  G 1%nat 0%nat * (H 0%nat 0%nat * u + H 0%nat 1%nat * v) + G 1%nat 1%nat * (H 1%nat 0%nat * u + H 1%nat 1%nat * v) = v.
Proof.
  intros HI. destruct (inv2 _ _ HI) as (a & b & c & d & e & f & g & h). cbn.
  (* J H = (row) : J H_j = K^T column *)
  assert (X : forall w0 w1 : R, let p := K 0%nat 0%nat * w0 + K 1%nat 0%nat * w1 in let q := K 0%nat 1%nat * w0 + K 1%nat 1%nat * w1 in
     J 0%nat 0%nat * (K 0%nat 0%nat * p + K 0%nat 1%nat * q) + J 0%nat 1%nat * (K 1%nat 0%nat * p + K 1%nat 1%nat * q) = p /\
     J 1%nat 0%nat * (K 0%nat 0%nat * p + K 0%nat 1%nat * q) + J 1%nat 1%nat * (K 1%nat 0%nat * p + K 1%nat 1%nat * q) = q).
  { intros w0 w1 p q. split.
    - transitivity ((J 0%nat 0%nat * K 0%nat 0%nat + J 0%nat 1%nat * K 1%nat 0%nat) * p + (J 0%nat 0%nat * K 0%nat 1%nat + J 0%nat 1%nat * K 1%nat 1%nat) * q); [ring|rewrite e, f; ring].
    - transitivity ((J 1%nat 0%nat * K 0%nat 0%nat + J 1%nat 1%nat * K 1%nat 0%nat) * p + (J 1%nat 0%nat * K 0%nat 1%nat + J 1%nat 1%nat * K 1%nat 1%nat) * q); [ring|rewrite g, h; ring]. }
  destruct (X u v) as [X0 X1]. cbv zeta in X0, X1. clear X. split.
  - transitivity (J 0%nat 0%nat * (K 0%nat 0%nat * u + K 1%nat 0%nat * v) + J 1%nat 0%nat * (K 0%nat 1%nat * u + K 1%nat 1%nat * v)).
    + match type of X0 with ?B0 = _ => match type of X1 with ?B1 = _ => transitivity (J 0%nat 0%nat * B0 + J 1%nat 0%nat * B1); [ring|rewrite X0, X1; reflexivity] end end.
    + transitivity ((K 0%nat 0%nat * J 0%nat 0%nat + K 0%nat 1%nat * J 1%nat 0%nat) * u + (K 1%nat 0%nat * J 0%nat 0%nat + K 1%nat 1%nat * J 1%nat 0%nat) * v); [ring|rewrite a, c; ring].
  - transitivity (J 0%nat 1%nat * (K 0%nat 0%nat * u + K 1%nat 0%nat * v) + J 1%nat 1%nat * (K 0%nat 1%nat * u + K 1%nat 1%nat * v)).
    + match type of X0 with ?B0 = _ => match type of X1 with ?B1 = _ => transitivity (J 0%nat 1%nat * B0 + J 1%nat 1%nat * B1); [ring|rewrite X0, X1; reflexivity] end end.
    + transitivity ((K 0%nat 0%nat * J 0%nat 1%nat + K 0%nat 1%nat * J 1%nat 1%nat) * u + (K 1%nat 0%nat * J 0%nat 1%nat + K 1%nat 1%nat * J 1%nat 1%nat) * v); [ring|rewrite b, d; ring].
Qed.
Lemma contravariant_point m r th dr dt v : invertible_at 2 m (c2 r th) -> m_jac m (c2 r th) = det_n 2 (m_J m (c2 r th)) ->
  contravariant_field m r th (dr, dt) = Ok v -> m_jac m (c2 r th) <> 0 /\ v = (- dt / m_jac m (c2 r th), dr / m_jac m (c2 r th)).
Proof.
  intros (K & EK & HI) HJ. unfold contravariant_field, metric_inverse. rewrite EK. cbn [bind].
  intros Hv. assert (X := f_equal (fun x => match x with Ok v => v | _ => v end) Hv). cbv beta iota in X. rewrite <- X. clear X Hv v.
  pose proof (inv_det K _ HI) as ND. assert (DN : m_jac m (c2 r th) <> 0). { rewrite HJ. intros Z. apply ND. rewrite <- Z. unfold det_n, determinant2. ring. }
  split; [exact DN|]. set (D := m_jac m (c2 r th)) in *. set (J := m_J m (c2 r th)) in *.
  destruct (metric_cancel K J dr dt HI) as [G0 G1]. cbn in G0, G1.
  f_equal.
  - apply (Rmult_eq_reg_r D); [|exact DN]. transitivity (- dt); [|field; exact DN].
    etransitivity; [|exact (f_equal Ropp G1)]. cbn. field. exact DN.
  - apply (Rmult_eq_reg_r D); [|exact DN]. transitivity dr; [|field; exact DN].
    etransitivity; [|exact G0]. cbn. field. exact DN.
Qed.
Lemma field_rt m ph grid A c : advection_field_rtheta m ph grid = Ok (A, c) ->
  (length A = length grid /\ forall k r th, nth_error grid k = Some (r, th) ->
    invertible_at 2 m (c2 r th) -> m_jac m (c2 r th) = det_n 2 (m_J m (c2 r th)) ->
    exists dr dt a b, slopes ph r th dr dt /\ nth_error A k = Some (a, b) /\ m_jac m (c2 r th) <> 0 /\
      m_jac m (c2 r th) * a = - dt /\ m_jac m (c2 r th) * b = dr) /\
  (directions m -> exists g, pole_slope m ph g (PI / 4) /\ pole_slope m ph g (- PI / 4 + 2 * PI) /\ c = rotated g).
Proof.
  intros H. unfold advection_field_rtheta in H.
  assert (X : exists A', (let* deriv_r := map_res (fun p => ph_r ph (fst p) (snd p)) grid in
     let* deriv_t := map_res (fun p => ph_t ph (fst p) (snd p)) grid in
     map_res (f_rt m) (combine grid (combine deriv_r deriv_t))) = Ok A' /\ exists g, centre_gradient m ph = Ok g /\ A = A' /\ c = (- snd g, fst g)).
  { destruct (map_res (fun p => ph_r ph (fst p) (snd p)) grid) as [a| | |]; cbn [bind] in *; try discriminate.
    destruct (map_res (fun p => ph_t ph (fst p) (snd p)) grid) as [b| | |]; cbn [bind] in *; try discriminate.
    change (map_res (fun q => let '(p, d) := q in contravariant_field m (fst p) (snd p) d)) with (map_res (f_rt m)) in H.
    destruct (map_res (f_rt m) (combine grid (combine a b))) as [A'| | |]; cbn [bind] in *; try discriminate.
    destruct (centre_gradient m ph) as [g| | |]; cbn [bind] in *; try discriminate. injection H as <- <-. eauto 6. }
  destruct X as (A' & HA & g & EG & -> & ->). destruct (field_points ph (f_rt m) grid A' HA) as [L N]. split; [split; [exact L|]|].
  - intros k r th E HI HJ. destruct (N k r th E) as (dr & dt & v & S & Hv & Nk). cbn [f_rt fst snd] in Hv.
    destruct (contravariant_point m r th dr dt v HI HJ Hv) as [DN ->]. do 4 eexists. split; [exact S|]. split; [exact Nk|]. split; [exact DN|].
    split; field; exact DN.
  - intros HD. destruct (centre_ok m ph g HD EG) as [P1 P2]. exists g. split; [exact P1|]. split; [exact P2|reflexivity].
Qed.
Lemma field_rt_total m ph grid : directions m -> (exists d, ph_r ph 0 (PI / 4) = Ok d) -> (exists d, ph_r ph 0 (- PI / 4 + 2 * PI) = Ok d) ->
  (forall r th, In (r, th) grid -> (exists dr dt, slopes ph r th dr dt) /\ invertible_at 2 m (c2 r th)) ->
  exists A c, advection_field_rtheta m ph grid = Ok (A, c).
Proof.
  intros HD [d1 E1] [d2 E2] H. destruct (field_points_total ph (f_rt m) grid) as [A HA].
  { intros r th Hi. destruct (H r th Hi) as ((dr & dt & S) & K & EK & _). exists dr, dt. cbn [f_rt fst snd]. unfold contravariant_field, metric_inverse. rewrite EK. cbn [bind].
    eexists. split; [exact S|reflexivity]. }
  unfold advection_field_rtheta. destruct (map_res (fun p => ph_r ph (fst p) (snd p)) grid) as [a| | |]; cbn [bind] in *; try discriminate.
  destruct (map_res (fun p => ph_t ph (fst p) (snd p)) grid) as [b| | |]; cbn [bind] in *; try discriminate.
  change (map_res (fun q => let '(p, d) := q in contravariant_field m (fst p) (snd p) d)) with (map_res (f_rt m)).
  rewrite HA. cbn [bind]. destruct (centre_total m ph d1 d2 HD E1 E2) as [g ->]. cbn [bind]. eauto.
Qed.
