From Verif Require Import PolarSpec PolarProofs RestrictProofs MappingProofs MappingCzarny MappingComb AdvProofs TimeProofs.
From Coq Require Import Lra Lia.
Open Scope R_scope.

(** ** Loops *)
Lemma upd3_eq {A} (f : nat -> nat -> nat -> A) i j k x : upd3 f i j k x i j k = x.
Proof. unfold upd3. now rewrite !upd_eq. Qed.
Lemma upd3_neq {A} (f : nat -> nat -> nat -> A) i j k x i' j' k' :
  (i', j', k') <> (i, j, k) -> upd3 f i j k x i' j' k' = f i' j' k'.
Proof.
  intros H. unfold upd3. destruct (Nat.eq_dec i' i) as [->|]; [|now rewrite upd_neq].
  rewrite upd_eq. destruct (Nat.eq_dec j' j) as [->|]; [|now rewrite upd_neq].
  rewrite upd_eq. destruct (Nat.eq_dec k' k) as [->|]; [congruence|now rewrite upd_neq].
Qed.
Definition triple_dec : forall a b : nat * nat * nat, {a = b} + {a <> b}.
Proof. intros [[a b] c] [[a' b'] c']. destruct (Nat.eq_dec a a'), (Nat.eq_dec b b'), (Nat.eq_dec c c'); subst; auto; right; congruence. Defined.

Section Loops.
Context {C : Type} (ai : interpolator2 C) (su : polar_setup) (fuel : nat).

Lemma feet_loop (dy : nat -> R * R -> res (R * R)) up m dt (h : nat -> nat -> nat -> R * R) order : forall feet,
  (forall ib ir it, In (ib, ir, it) order -> stepper_res (dy ib) up m (ps_r su ir, ps_t su it) dt = Ok (h ib ir it)) ->
  exists feet', fold_res (fun feet (idx : nat * nat * nat) =>
      let '(ib, ir, it) := idx in
      let feet := upd3 feet ib ir it (ps_r su ir, ps_t su it) in
      let* y := stepper_res (dy ib) up m (feet ib ir it) dt in
      Ok (upd3 feet ib ir it y)) order feet = Ok feet' /\
    forall ib ir it, feet' ib ir it = if in_dec triple_dec (ib, ir, it) order then h ib ir it else feet ib ir it.
Proof.
  induction order as [|[[jb jr] jt] l IH]; intros feet H.
  - exists feet. split; auto.
  - cbn [fold_res]. rewrite upd3_eq, H by (left; reflexivity). cbn [bind].
    destruct (IH (upd3 (upd3 feet jb jr jt (ps_r su jr, ps_t su jt)) jb jr jt (h jb jr jt))) as (feet' & E & V).
    { intros; apply H; right; auto. }
    exists feet'. split; [exact E|]. intros ib ir it. rewrite V.
    destruct (in_dec triple_dec (ib, ir, it) l) as [Hl|Hl];
      destruct (in_dec triple_dec (ib, ir, it) ((jb, jr, jt) :: l)) as [Hc|Hc]; auto.
    + exfalso. apply Hc. now right.
    + destruct Hc as [Hc|Hc]; [|tauto]. injection Hc as -> -> ->. now rewrite upd3_eq.
    + rewrite !upd3_neq; auto; intros E'; apply Hc; left; congruence.
Qed.

Lemma unify_inner ib l : forall v : nat -> nat -> nat -> R * R, forall jb jr jt,
  fold_left (fun v it => upd3 v ib 0 it (v ib 0%nat 0%nat)) l v jb jr jt =
  if (Nat.eq_dec jb ib) then if Nat.eq_dec jr 0 then if in_dec Nat.eq_dec jt l then v ib 0%nat 0%nat else v jb jr jt
  else v jb jr jt else v jb jr jt.
Proof.
  induction l as [|a l IH]; intros v jb jr jt; cbn [fold_left].
  - destruct (Nat.eq_dec jb ib); auto. destruct (Nat.eq_dec jr 0); auto.
  - rewrite IH.
    assert (E : upd3 v ib 0 a (v ib 0%nat 0%nat) ib 0%nat 0%nat = v ib 0%nat 0%nat).
    { destruct (Nat.eq_dec a 0) as [->|]; [apply upd3_eq|apply upd3_neq; congruence]. }
    rewrite E.
    destruct (Nat.eq_dec jb ib) as [->|N]; [|apply upd3_neq; congruence].
    destruct (Nat.eq_dec jr 0) as [->|N]; [|apply upd3_neq; congruence].
    destruct (in_dec Nat.eq_dec jt l) as [Hl|Hl]; destruct (in_dec Nat.eq_dec jt (a :: l)) as [Hc|Hc]; auto.
    + exfalso. apply Hc. now right.
    + destruct Hc as [->|Hc]; [|tauto]. apply upd3_eq.
    + apply upd3_neq. intros Q. apply Hc. left. congruence.
Qed.
Lemma unify_spec border v jb jr jt :
  unify_value_at_centre_pt su border v jb jr jt =
  if Rlt_dec (Rabs (ps_r su 0)) tiny then
    if in_dec Nat.eq_dec jb border then if Nat.eq_dec jr 0 then if (jt <? ps_nt su)%nat then v jb 0%nat 0%nat else v jb jr jt
    else v jb jr jt else v jb jr jt else v jb jr jt.
Proof.
  unfold unify_value_at_centre_pt. destruct (Rlt_dec _ _) as [Hc0|Hc0]; [|reflexivity]. revert v.
  induction border as [|b l IH]; intros v; cbn [fold_left]; [reflexivity|].
  rewrite IH.
  assert (S0 : In jt (seq 0 (ps_nt su)) <-> (jt < ps_nt su)%nat) by (rewrite in_seq; lia).
  assert (E : forall q, fold_left (fun v it => upd3 v b 0 it (v b 0%nat 0%nat)) (seq 0 (ps_nt su)) v q 0%nat 0%nat = v q 0%nat 0%nat).
  { intros q. rewrite unify_inner. destruct (Nat.eq_dec q b) as [->|]; [|reflexivity]. destruct (Nat.eq_dec 0 0); [|reflexivity].
    destruct (in_dec Nat.eq_dec 0%nat (seq 0 (ps_nt su))); reflexivity. }
  rewrite E, unify_inner.
  destruct (Nat.eq_dec jr 0) as [->|N].
  - destruct (Nat.ltb_spec jt (ps_nt su)) as [Ht|Ht]; destruct (in_dec Nat.eq_dec jt (seq 0 (ps_nt su))) as [Hs|Hs]; try (exfalso; apply S0 in Hs; lia); try (exfalso; apply Hs, S0; lia).
    + destruct (in_dec Nat.eq_dec jb l) as [Hl|Hl]; destruct (in_dec Nat.eq_dec jb (b :: l)) as [Hc|Hc];
        destruct (Nat.eq_dec jb b) as [->|Nb]; auto; exfalso; simpl in Hc; intuition congruence.
    + destruct (in_dec Nat.eq_dec jb l); destruct (in_dec Nat.eq_dec jb (b :: l)); destruct (Nat.eq_dec jb b); auto.
  - destruct (in_dec Nat.eq_dec jb l); destruct (in_dec Nat.eq_dec jb (b :: l)); destruct (Nat.eq_dec jb b); auto.
Qed.
Lemma unified_ok border v :
  (Rabs (ps_r su 0) < tiny -> forall ib it, In ib border -> (it < ps_nt su)%nat -> v ib 0%nat it = v ib 0%nat 0%nat) ->
  is_unified su border v = Ok tt.
Proof.
  intros H. unfold is_unified. destruct (Rlt_dec _ _) as [Hr|]; auto. specialize (H Hr).
  assert (L : forall ib l, (forall it, In it l -> v ib 0%nat it = v ib 0%nat 0%nat) -> fold_res (fun (_ : unit) it =>
         let d := ksub (v ib 0%nat it) (v ib 0%nat 0%nat) in
         if Req_EM_T (fst d) 0 then if Req_EM_T (snd d) 0 then Ok tt else AssertFail else AssertFail) l tt = Ok tt).
  { intros ib l. induction l as [|a l IH]; intros Hl; cbn [fold_res]; auto.
    rewrite (Hl a) by (left; reflexivity). cbn zeta. unfold ksub. cbn [fst snd]. rewrite !Rminus_eq_0.
    destruct (Req_EM_T 0 0); [|lra]. cbn [bind]. apply IH. intros; apply Hl; now right. }
  induction border as [|b l IH]; cbn [fold_res]; auto.
  rewrite L; [|intros it Hi; apply in_seq in Hi; apply H; [left; auto|lia]]. cbn [bind]. apply IH.
  intros; apply H; [right|]; auto.
Qed.

Section Feet.
Hypothesis Hlen : 0 < ps_tlen su.
Hypothesis Hfuel : (10 <= fuel)%nat.
Hypothesis Hrad : forall p, 0 <= fst (ps_of_pc su p).
Variables (nb : nat) (adv : nat -> nat -> nat -> R * R) (B : nat -> R * R -> R * R).
Hypothesis Hr : forall ir, (ir < ps_nr su)%nat -> 0 <= ps_r su ir.
Hypothesis HB : forall ib, (ib < nb)%nat -> velocity_is ai su (coefs_x ai su adv ib) (coefs_y ai su adv ib) (B ib).

Lemma find_feet_ok m order border border' dt feet0 :
  all_triples nb (ps_nr su) (ps_nt su) order -> all_lines nb border -> all_lines nb border' ->
  exists feet, find_feet ai su fuel m order border border' adv dt feet0 = Ok feet /\
    (forall ib ir it, (ib < nb)%nat -> (ir < ps_nr su)%nat -> (it < ps_nt su)%nat ->
      foot_from ai su fuel m adv dt ib (ps_r su ir, ps_t su (own_angle su ir it)) = Ok (feet ib ir it)).
Proof.
  intros Ho Hb Hb'.
  assert (Hs : forall ib ir it, (ib < nb)%nat -> (ir < ps_nr su)%nat ->
    exists y, foot_from ai su fuel m adv dt ib (ps_r su ir, ps_t su it) = Ok y).
  { intros ib ir it H1 H2. unfold foot_from.
    destruct (stepper_logical ai su fuel Hlen Hfuel Hrad _ _ _ (HB ib H1) m (ps_r su ir, ps_t su it) dt) as (k & h & E); [apply Hr; auto|].
    rewrite E. eauto. }
  set (h := fun ib ir it => match foot_from ai su fuel m adv dt ib (ps_r su ir, ps_t su it) with Ok y => y | _ => (0, 0) end).
  destruct (feet_loop (fun ib => foot_velocity ai su (coefs_x ai su adv ib) (coefs_y ai su adv ib)) (foot_step su fuel) m dt h order feet0)
    as (feet & E & V).
  { intros ib ir it Hi. apply Ho in Hi as (H1 & H2 & H3). unfold h. destruct (Hs ib ir it H1 H2) as [y Ey].
    rewrite Ey. exact Ey. }
  unfold find_feet. cbn zeta. fold (coefs_x ai su adv). fold (coefs_y ai su adv).
  match type of E with ?a = _ => match goal with |- context [bind ?b _] => change b with a end end.
  rewrite E. cbn [bind].
  assert (Vu : forall ib ir it, (ib < nb)%nat -> (ir < ps_nr su)%nat -> (it < ps_nt su)%nat ->
    unify_value_at_centre_pt su border feet ib ir it = h ib ir (own_angle su ir it)).
  { intros ib ir it H1 H2 H3. rewrite unify_spec. unfold own_angle.
    destruct (Nat.eqb_spec ir 0) as [->|N].
    - destruct (Rlt_dec _ _) as [Hc|Hc].
      + destruct (in_dec Nat.eq_dec ib border) as [_|Hn]; [|exfalso; apply Hn, Hb; auto].
        destruct (Nat.eq_dec 0 0) as [_|]; [|lia]. destruct (Nat.ltb_spec it (ps_nt su)); [|lia].
        rewrite V. destruct (in_dec triple_dec _ order) as [_|Hn]; auto. exfalso. apply Hn, Ho. lia.
      + rewrite V. destruct (in_dec triple_dec _ order) as [_|Hn]; auto. exfalso. apply Hn, Ho. lia.
    - assert (V' : feet ib ir it = h ib ir it).
      { rewrite V. destruct (in_dec triple_dec _ order) as [_|Hn]; auto. exfalso. apply Hn, Ho. lia. }
      destruct (Rlt_dec _ _); auto. destruct (in_dec _ _ _); auto. destruct (Nat.eq_dec ir 0); [lia|auto]. }
  rewrite unified_ok; cbn [bind].
  - eexists. split; [reflexivity|]. intros ib ir it H1 H2 H3. rewrite Vu by auto. unfold h.
    destruct (Hs ib ir (own_angle su ir it) H1 H2) as [y Ey]. rewrite Ey. reflexivity.
  - intros Hc ib it Hi Ht. rewrite !unify_spec. destruct (Rlt_dec _ _); [|lra].
    destruct (in_dec Nat.eq_dec ib border) as [_|Hn]; [|exfalso; apply Hn, Hb, Hb'; auto].
    destruct (Nat.eq_dec 0 0); [|lia]. destruct (Nat.ltb_spec it (ps_nt su)); [|lia].
    destruct (Nat.ltb_spec 0 (ps_nt su)); [auto|lia].
Qed.

(** every foot is a logical point: radius and angle *)
Lemma foot_range m dt ib y : (ib < nb)%nat -> 0 <= fst y ->
  exists z, foot_from ai su fuel m adv dt ib y = Ok z /\ 0 <= fst z /\
    (z = (0, 0) \/ ps_tmin su <= snd z < ps_tmin su + ps_tlen su).
Proof.
  intros H1 Hy. destruct (stepper_logical ai su fuel Hlen Hfuel Hrad _ _ _ (HB ib H1) m y dt Hy) as (k & h & E).
  unfold foot_from. rewrite E. eexists. split; [reflexivity|]. split; [apply logical_radius; auto|].
  apply (logical_angle su Hlen).
Qed.

(** ** The advection *)
Context {D : Type} (fi : interpolator2 D).
Lemma advect_ok m sc feet0 f dt : good_schedule nb (ps_nr su) (ps_nt su) sc ->
  exists g feet, advect_xy ai su fuel fi m sc nb feet0 f adv dt = Ok g /\
    (forall ib ir it, (ib < nb)%nat -> (ir < ps_nr su)%nat -> (it < ps_nt su)%nat ->
      foot_from ai su fuel m adv dt ib (ps_r su ir, ps_t su (own_angle su ir it)) = Ok (feet ib ir it)) /\
    (forall ib ir it, g ib ir it = if ((ib <? nb) && (ir <? ps_nr su) && (it <? ps_nt su))%nat
                                   then interpolant2 fi su (f ib) (feet ib ir it) else f ib ir it).
Proof.
  intros (H1 & H2 & H3 & H4). unfold advect_xy. cbn zeta.
  match goal with |- context [find_feet _ _ _ _ _ _ _ _ _ ?ft] =>
    destruct (find_feet_ok m (sc_feet sc) (sc_unify sc) (sc_check sc) dt ft H2 H3 H4) as (feet & E & V) end.
  rewrite E. cbn [bind]. eexists. exists feet. split; [reflexivity|]. split; [exact V|]. reflexivity.
Qed.
End Feet.
End Loops.
