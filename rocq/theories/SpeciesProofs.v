(** Proofs about the species tables, the split solvers and the time loop. *)
From Verif Require Import SpeciesModel SpeciesSpec.
From Coq Require Import ZifyBool.
Open Scope R_scope.

Lemma is_minus_one_true q : is_minus_one q = true <-> q = -1.
Proof. unfold is_minus_one. destruct (Req_EM_T q (-1)); split; intros; congruence. Qed.
Lemma is_minus_one_false q : is_minus_one q = false <-> q <> -1.
Proof. unfold is_minus_one. destruct (Req_EM_T q (-1)); split; intros; congruence. Qed.

(** ** the electron search *)
Definition last_minus_one (l : list R) (n : nat) (e : option Z) : Prop :=
  match e with
  | Some z => exists k, z = Z.of_nat k /\ (k < n)%nat /\ nth_error l k = Some (-1) /\
                (forall j, (k < j < n)%nat -> nth_error l j <> Some (-1))
  | None => forall j, (j < n)%nat -> nth_error l j <> Some (-1)
  end.

Lemma find_electron_ok l : last_minus_one l (length l) (find_electron l).
Proof.
  unfold find_electron.
  apply (for_loop_inv (fun n e => last_minus_one l n e)).
  - simpl. intros; lia.
  - intros i e Hi H.
    destruct (nth_error l i) as [q|] eqn:E; [|apply nth_error_None in E; lia].
    destruct (is_minus_one q) eqn:Q.
    + apply is_minus_one_true in Q. subst q. simpl. exists i.
      split; [reflexivity|]. split; [lia|]. split; [assumption|]. intros; lia.
    + apply is_minus_one_false in Q. destruct e as [z|]; simpl in *.
      * destruct H as [k [-> [Hk [Hn Hl]]]]. exists k.
        split; [reflexivity|]. split; [lia|]. split; [assumption|].
        intros j Hj. destruct (Nat.eq_dec j i) as [->|].
        -- rewrite E. congruence.
        -- apply Hl. lia.
      * intros j Hj. destruct (Nat.eq_dec j i) as [->|].
        -- rewrite E; congruence.
        -- apply H; lia.
Qed.

Lemma rd_nth_error {A} (l : list A) k x : nth_error l k = Some x -> rd l (Z.of_nat k) = Ok x.
Proof. intros H. unfold rd. replace (Z.of_nat k <? 0)%Z with false by lia. rewrite Nat2Z.id, H. reflexivity. Qed.

Lemma rd_lt {A} (l : list A) i x : rd l i = Ok x -> (0 <= i < Z.of_nat (length l))%Z.
Proof.
  unfold rd. destruct (i <? 0)%Z eqn:E; [discriminate|].
  destruct (nth_error l (Z.to_nat i)) eqn:N; [|discriminate]. intros _.
  assert (Z.to_nat i < length l)%nat by (apply nth_error_Some; congruence). lia.
Qed.

(** ** reading the configuration *)
Lemma read_all_ok {A} (l : list A) n : (n <= length l)%nat -> read_all l n = Ok (firstn n l).
Proof.
  induction n as [|n IH]; intros H; simpl; [reflexivity|].
  rewrite IH by lia. simpl. unfold pcpp_get.
  destruct (nth_error l n) as [x|] eqn:E; [|apply nth_error_None in E; lia]. simpl.
  f_equal. clear IH. revert l H E. induction n as [|n IHn]; intros [|h t] H E; simpl in *; try discriminate; try lia.
  - injection E as ->. reflexivity.
  - f_equal. apply IHn; [lia|assumption].
Qed.
Lemma read_all_throw {A} (l : list A) n : (length l < n)%nat -> read_all l n = Throw.
Proof.
  induction n as [|n IH]; intros H; [lia|]. simpl.
  destruct (Nat.eq_dec n (length l)) as [->|].
  - rewrite read_all_ok by lia. simpl. unfold pcpp_get.
    destruct (nth_error l (length l)) eqn:E; [|reflexivity].
    assert (length l < length l)%nat by (apply nth_error_Some; congruence). lia.
  - rewrite IH by lia. reflexivity.
Qed.

(** ** adiabatic species *)
Lemma deduce_gen l a b :
  fold_left (fun st q => if is_minus_one q then (0%nat, snd st) else (fst st, 0%nat)) l (a, b) =
  (if existsb is_minus_one l then 0%nat else a, if existsb (fun q => negb (is_minus_one q)) l then 0%nat else b).
Proof.
  revert a b. induction l as [|q l IH]; intros a b; simpl; [reflexivity|].
  destruct (is_minus_one q) eqn:Q; cbn [fst snd]; rewrite IH; cbn [negb orb].
  - destruct (existsb is_minus_one l); reflexivity.
  - destruct (existsb (fun q => negb (is_minus_one q)) l); reflexivity.
Qed.
Lemma deduce_eq l : deduce_adiabatic l =
  (if existsb is_minus_one l then 0%nat else 1%nat, if existsb (fun q => negb (is_minus_one q)) l then 0%nat else 1%nat).
Proof. unfold deduce_adiabatic. apply deduce_gen. Qed.

Lemma existsb_true_Exists l : existsb is_minus_one l = true -> Exists (fun q => q = -1) l.
Proof. intros H. apply existsb_exists in H. destruct H as [x [Hx H]]. apply Exists_exists. exists x. split; [assumption|]. now apply is_minus_one_true. Qed.
Lemma existsb_false_Forall l : existsb is_minus_one l = false -> Forall (fun q => q <> -1) l.
Proof.
  induction l as [|q l IH]; simpl; intros H; constructor.
  - apply orb_false_iff in H. now apply is_minus_one_false.
  - apply orb_false_iff in H. now apply IH.
Qed.
Lemma existsb_ntrue_Exists l : existsb (fun q => negb (is_minus_one q)) l = true -> Exists (fun q => q <> -1) l.
Proof. intros H. apply existsb_exists in H. destruct H as [x [Hx H]]. apply Exists_exists. exists x. split; [assumption|]. apply is_minus_one_false. now apply negb_true_iff in H. Qed.
Lemma existsb_nfalse_Forall l : existsb (fun q => negb (is_minus_one q)) l = false -> Forall (fun q => q = -1) l.
Proof.
  induction l as [|q l IH]; simpl; intros H; constructor.
  - apply orb_false_iff in H. destruct H as [H _]. apply negb_false_iff in H. now apply is_minus_one_true.
  - apply orb_false_iff in H. now apply IH.
Qed.

Lemma deduce_spec l : l <> [] ->
  exists e i, deduce_adiabatic l = (e, i) /\ (e + i <= 1)%nat /\
    adiabatic_charges l (if (0 <? e + i)%nat then [INR i - INR e] else []) /\
    (2 <= length l + (e + i))%nat.
Proof.
  intros Hl. rewrite deduce_eq.
  destruct (existsb is_minus_one l) eqn:E1; destruct (existsb (fun q => negb (is_minus_one q)) l) eqn:E2.
  - exists 0%nat, 0%nat. split; [reflexivity|]. split; [lia|]. split.
    + right; right. split; [now apply existsb_true_Exists|]. split; [now apply existsb_ntrue_Exists|reflexivity].
    + destruct l as [|a [|b l]]; [congruence| |simpl; lia]. exfalso.
      simpl in E1, E2. destruct (is_minus_one a); simpl in *; congruence.
  - exists 0%nat, 1%nat. split; [reflexivity|]. split; [lia|]. split.
    + right; left. split; [assumption|]. split; [now apply existsb_nfalse_Forall|]. simpl. f_equal. lra.
    + destruct l; [congruence|simpl; lia].
  - exists 1%nat, 0%nat. split; [reflexivity|]. split; [lia|]. split.
    + left. split; [assumption|]. split; [now apply existsb_false_Forall|]. simpl. f_equal. lra.
    + destruct l; [congruence|simpl; lia].
  - exfalso. destruct l as [|a l]; [congruence|]. simpl in E1, E2. destruct (is_minus_one a); simpl in *; congruence.
Qed.

Lemma species_new_ok charges masses : (2 <= length charges)%nat -> Exists (fun q => q = -1) charges ->
  exists s, species_new charges masses = Ok s /\ sp_charges s = charges /\ sp_masses s = masses /\
    charge s (ielec s) = Ok (-1) /\
    (forall j, (ielec s < j)%Z -> charge s j <> Ok (-1)).
Proof.
  intros Hn He. unfold species_new. replace (2 <=? length charges)%nat with true by lia. simpl.
  pose proof (find_electron_ok charges) as F. destruct (find_electron charges) as [z|].
  - destruct F as [k [-> [Hk [Hs Hl]]]]. eexists. split; [reflexivity|]. cbn.
    split; [reflexivity|]. split; [reflexivity|]. split.
    + unfold charge, ielec. cbn. now apply rd_nth_error.
    + intros j Hj Hc. unfold charge in Hc. cbn in Hc. pose proof (rd_lt _ _ _ Hc).
      apply (Hl (Z.to_nat j)); [lia|]. unfold rd in Hc.
      destruct (j <? 0)%Z; [discriminate|]. destruct (nth_error charges (Z.to_nat j)); congruence.
  - exfalso. apply Exists_exists in He. destruct He as [x [Hx ->]].
    apply In_nth_error in Hx. destruct Hx as [k Hk]. simpl in F.
    apply (F k); [apply nth_error_Some; congruence|assumption].
Qed.

Lemma Exists_app_l {A} (P : A -> Prop) l l' : Exists P l -> Exists P (l ++ l').
Proof. intros H. apply Exists_app. now left. Qed.
Lemma Exists_app_r {A} (P : A -> Prop) l l' : Exists P l' -> Exists P (l ++ l').
Proof. intros H. apply Exists_app. now right. Qed.

Theorem init_all_species_ok conf nk nf :
  (1 <= nk <= length (cf_species conf))%nat -> (nf <= length (cf_neutral conf))%nat ->
  exists s adiab,
    init_all_species conf (Z.of_nat nk) (Z.of_nat nf) =
      Ok (mk_range 0 nk, mk_range (Z.of_nat nk) nf, s) /\
    adiabatic_charges (map fst (firstn nk (cf_species conf))) adiab /\
    sp_charges s = map fst (firstn nk (cf_species conf)) ++ repeat 0 nf ++ adiab /\
    sp_masses s = map snd (firstn nk (cf_species conf)) ++ firstn nf (cf_neutral conf) /\
    charge s (ielec s) = Ok (-1) /\
    (forall j, (ielec s < j)%Z -> charge s j <> Ok (-1)).
Proof.
  intros Hk Hf. unfold init_all_species.
  replace ((Z.of_nat nk <? 0) || (Z.of_nat nf <? 0))%Z with false by lia.
  rewrite !Nat2Z.id, !read_all_ok by lia. cbn [bind].
  set (kq := map fst (firstn nk (cf_species conf))).
  set (km := map snd (firstn nk (cf_species conf))).
  assert (Lk : length kq = nk) by (unfold kq; rewrite map_length, firstn_length; lia).
  assert (Hne : kq <> []) by (intros E; rewrite E in Lk; simpl in Lk; lia).
  destruct (deduce_spec kq Hne) as [e [i [D [Hei [A L2]]]]]. rewrite D. cbn [bind].
  replace (1 <? e + i)%nat with false by lia.
  assert (Hz : map (fun _ : R => 0) (firstn nf (cf_neutral conf)) = repeat 0 nf).
  { assert (Ln : length (firstn nf (cf_neutral conf)) = nf) by (rewrite firstn_length; lia).
    revert Ln. generalize (firstn nf (cf_neutral conf)). intros l. revert nf Hf.
    induction l as [|a l IH]; intros [|n] Hf Ln; simpl in *; try lia; [reflexivity|].
    f_equal. apply IH; lia. }
  rewrite Hz. set (ad := if (0 <? e + i)%nat then [INR i - INR e] else []) in *.
  destruct (species_new_ok (kq ++ repeat 0 nf ++ ad) (km ++ firstn nf (cf_neutral conf)))
    as [s [Es [Ec [Em [Ee El]]]]].
  - rewrite !app_length, repeat_length. unfold ad.
    destruct (0 <? e + i)%nat eqn:Q; cbn [length]; lia.
  - destruct A as [[_ [_ ->]] | [[_ [F ->]] | [E _]]].
    + apply Exists_app_r, Exists_app_r. now constructor.
    + apply Exists_app_l. destruct kq as [|a l]; [congruence|]. constructor. now inversion F.
    + now apply Exists_app_l.
  - rewrite Es. cbn [bind]. exists s, ad. repeat split; assumption.
Qed.

Theorem init_all_species_none conf nf :
  init_all_species conf 0 (Z.of_nat nf) = Throw.
Proof.
  unfold init_all_species. replace ((0 <? 0) || (Z.of_nat nf <? 0))%Z with false by lia.
  simpl. reflexivity.
Qed.

Theorem init_all_species_missing conf nk nf : (length (cf_species conf) < nk)%nat ->
  init_all_species conf (Z.of_nat nk) (Z.of_nat nf) = Throw.
Proof.
  intros H. unfold init_all_species.
  replace ((Z.of_nat nk <? 0) || (Z.of_nat nf <? 0))%Z with false by lia.
  rewrite !Nat2Z.id, read_all_throw by lia. reflexivity.
Qed.

Lemma rd_app_l {A} (l l' : list A) i : (0 <= i < Z.of_nat (length l))%Z -> rd (l ++ l') i = rd l i.
Proof. intros H. unfold rd. destruct (i <? 0)%Z; [reflexivity|]. rewrite nth_error_app1 by lia. reflexivity. Qed.
Lemma rd_app_r {A} (l l' : list A) i : (Z.of_nat (length l) <= i)%Z -> rd (l ++ l') i = rd l' (i - Z.of_nat (length l)).
Proof.
  intros H. unfold rd. replace (i <? 0)%Z with false by lia. replace (i - Z.of_nat (length l) <? 0)%Z with false by lia.
  rewrite nth_error_app2 by lia. replace (Z.to_nat (i - Z.of_nat (length l))) with (Z.to_nat i - length l)%nat by lia. reflexivity.
Qed.

Theorem lookups conf nk nf k fl s :
  init_all_species conf (Z.of_nat nk) (Z.of_nat nf) = Ok (k, fl, s) ->
  r_front k = 0%Z /\ r_size k = nk /\ r_front fl = Z.of_nat nk /\ r_size fl = nf /\
  (forall i, (i < nk)%nat -> exists q m, nth_error (cf_species conf) i = Some (q, m) /\
       charge s (Z.of_nat i) = Ok q /\ mass s (Z.of_nat i) = Ok m) /\
  (forall i, (i < nf)%nat -> exists m, nth_error (cf_neutral conf) i = Some m /\
       charge s (Z.of_nat (nk + i)) = Ok 0 /\ mass s (Z.of_nat (nk + i)) = Ok m) /\
  (forall j, (Z.of_nat (nk + nf + 1) <= j)%Z -> charge s j = Ub) /\
  (forall j, (Z.of_nat (nk + nf) <= j)%Z -> mass s j = Ub).
Proof.
  intros H.
  assert (Hk : (1 <= nk <= length (cf_species conf))%nat).
  { destruct nk as [|nk]; [change (Z.of_nat 0) with 0%Z in H; rewrite init_all_species_none in H; discriminate|].
    destruct (le_lt_dec (S nk) (length (cf_species conf))); [lia|].
    rewrite init_all_species_missing in H by lia. discriminate. }
  assert (Hf : (nf <= length (cf_neutral conf))%nat).
  { destruct (le_lt_dec nf (length (cf_neutral conf))) as [L|L]; [lia|]. exfalso.
    unfold init_all_species in H.
    replace ((Z.of_nat nk <? 0) || (Z.of_nat nf <? 0))%Z with false in H by lia.
    rewrite !Nat2Z.id, (read_all_ok (cf_species conf)), (read_all_throw (cf_neutral conf)) in H by lia.
    cbn [bind] in H.
    destruct (deduce_adiabatic _) as [e i]. destruct (1 <? e + i)%nat; discriminate. }
  destruct (init_all_species_ok conf nk nf Hk Hf) as [s' [ad [E [A [Ec [Em _]]]]]].
  rewrite E in H. injection H as <- <- <-. cbn.
  do 4 (split; [reflexivity|]).
  assert (Lq : length (map fst (firstn nk (cf_species conf))) = nk) by (rewrite map_length, firstn_length; lia).
  assert (Lm : length (map snd (firstn nk (cf_species conf))) = nk) by (rewrite map_length, firstn_length; lia).
  assert (La : (length ad <= 1)%nat) by (destruct A as [[_ [_ ->]]|[[_ [_ ->]]|[_ [_ ->]]]]; simpl; lia).
  assert (Lf : length (firstn nf (cf_neutral conf)) = nf) by (rewrite firstn_length; lia).
  assert (FN : forall (T : Type) (l : list T) m i, (i < m)%nat -> nth_error (firstn m l) i = nth_error l i).
  { intros T l m. revert l. induction m as [|m IH]; intros [|h t] [|i] Hi; simpl; try lia; auto. apply IH; lia. }
  split; [|split; [|split]].
  - intros i Hi. destruct (nth_error (cf_species conf) i) as [[q m]|] eqn:Ei; [|apply nth_error_None in Ei; lia].
    exists q, m. split; [reflexivity|]. unfold charge, mass. rewrite Ec, Em.
    rewrite !rd_app_l by lia. split; apply rd_nth_error; rewrite nth_error_map, FN, Ei by lia; reflexivity.
  - intros i Hi. destruct (nth_error (cf_neutral conf) i) as [m|] eqn:Ei; [|apply nth_error_None in Ei; lia].
    exists m. split; [reflexivity|]. unfold charge, mass. rewrite Ec, Em.
    rewrite (rd_app_r (map fst _)), (rd_app_r (map snd _)) by lia. rewrite Lq, Lm.
    replace (Z.of_nat (nk + i) - Z.of_nat nk)%Z with (Z.of_nat i) by lia. split.
    + rewrite rd_app_l by (rewrite repeat_length; lia). apply rd_repeat. lia.
    + apply rd_nth_error. rewrite FN by lia. assumption.
  - intros j Hj. unfold charge. rewrite Ec. rewrite rd_app_r, rd_app_r by (rewrite ?repeat_length; lia).
    rewrite Lq, repeat_length. unfold rd.
    match goal with |- (if ?b then _ else _) = _ => destruct b eqn:B; [reflexivity|] end.
    match goal with |- match ?x with _ => _ end = _ => destruct x eqn:N; [|reflexivity] end.
    assert (HN : nth_error ad (Z.to_nat (j - Z.of_nat nk - Z.of_nat nf)) <> None) by congruence.
    apply nth_error_Some in HN. lia.
  - intros j Hj. unfold mass. rewrite Em. rewrite rd_app_r by lia. rewrite Lm. unfold rd.
    match goal with |- (if ?b then _ else _) = _ => destruct b eqn:B; [reflexivity|] end.
    match goal with |- match ?x with _ => _ end = _ => destruct x eqn:N; [|reflexivity] end.
    assert (HN : nth_error (firstn nf (cf_neutral conf)) (Z.to_nat (j - Z.of_nat nk)) <> None) by congruence.
    apply nth_error_Some in HN. lia.
Qed.

(** mass(ielec()) is out of bounds as soon as the electrons are adiabatic *)
Theorem mass_ielec_oob conf nk nf k fl s :
  init_all_species conf (Z.of_nat nk) (Z.of_nat nf) = Ok (k, fl, s) ->
  Forall (fun p => fst p <> -1) (firstn nk (cf_species conf)) ->
  mass s (ielec s) = Ub.
Proof.
  intros H F. destruct (lookups _ _ _ _ _ _ H) as [_ [_ [_ [_ [Hk [Hf [_ Hm]]]]]]].
  apply Hm.
  assert (Hk1 : (1 <= nk <= length (cf_species conf))%nat).
  { destruct nk as [|n]; [change (Z.of_nat 0) with 0%Z in H; rewrite init_all_species_none in H; discriminate|].
    destruct (le_lt_dec (S n) (length (cf_species conf))); [lia|].
    rewrite init_all_species_missing in H by lia. discriminate. }
  assert (Hc : charge s (ielec s) = Ok (-1)).
  { destruct (le_lt_dec nf (length (cf_neutral conf))) as [L|L].
    - destruct (init_all_species_ok conf nk nf Hk1 L) as [s' [ad [E [_ [_ [_ [C _]]]]]]].
      rewrite E in H. injection H as <- <- <-. exact C.
    - exfalso. destruct (Hf (length (cf_neutral conf)) L) as [m [N _]].
      assert (HN : nth_error (cf_neutral conf) (length (cf_neutral conf)) <> None) by congruence.
      apply nth_error_Some in HN. lia. }
  pose proof (rd_lt _ _ _ Hc) as [H0 _].
  destruct (Z_lt_le_dec (ielec s) (Z.of_nat (nk + nf))) as [L|L]; [|assumption]. exfalso.
  destruct (Z_lt_le_dec (ielec s) (Z.of_nat nk)) as [L2|L2].
  - destruct (Hk (Z.to_nat (ielec s))) as [q [m [N [C _]]]]; [lia|].
    rewrite Z2Nat.id in C by lia. rewrite C in Hc. injection Hc as ->.
    rewrite Forall_forall in F. apply (F (-1, m)); [|reflexivity].
    apply nth_error_In with (n := Z.to_nat (ielec s)).
    rewrite <- N. clear -L2 H0. assert (Hi : (Z.to_nat (ielec s) < nk)%nat) by lia. revert Hi.
    generalize (Z.to_nat (ielec s)). generalize (cf_species conf). clear L2 H0.
    induction nk as [|n IH]; intros [|h t] [|i] Hi; simpl; try lia; auto. apply IH; lia.
  - destruct (Hf (Z.to_nat (ielec s) - nk)%nat) as [m [_ [C _]]]; [lia|].
    replace (Z.of_nat (nk + (Z.to_nat (ielec s) - nk))) with (ielec s) in C by lia.
    rewrite C in Hc. injection Hc. lra.
Qed.

(** restarting from the saved kinetic species gives back the same tables when there is no
    adiabatic nor fluid species *)
Theorem restart_same conf nk k fl s :
  init_all_species conf (Z.of_nat nk) 0 = Ok (k, fl, s) ->
  Exists (fun p => fst p = -1) (firstn nk (cf_species conf)) ->
  Exists (fun p => fst p <> -1) (firstn nk (cf_species conf)) ->
  init_kinetic_species (sp_charges s) (sp_masses s) = Ok (k, s).
Proof.
  intros H E1 E2.
  assert (Hk : (1 <= nk <= length (cf_species conf))%nat).
  { destruct nk as [|n]; [change (Z.of_nat 0) with 0%Z in H; pose proof (init_all_species_none conf 0) as H9; cbn in H9, H; congruence; discriminate|].
    destruct (le_lt_dec (S n) (length (cf_species conf))); [lia|].
    pose proof (init_all_species_missing conf (S n) 0) as H9; change (Z.of_nat 0) with 0%Z in H9; rewrite H9 in H by lia; discriminate. }
  destruct (init_all_species_ok conf nk 0 Hk) as [s' [ad [E [A [Ec [Em _]]]]]]; [lia|].
  change (Z.of_nat 0) with 0%Z in E.
  assert (K : s' = s /\ k = mk_range 0 nk) by (rewrite E in H; injection H as <- <- <-; split; reflexivity).
  destruct K as [-> ->].
  assert (Had : ad = []).
  { destruct A as [[_ [F _]] | [[_ [F _]] | [_ [_ ->]]]]; [exfalso|exfalso|reflexivity].
    - apply Exists_exists in E1. destruct E1 as [p [Hp Q]]. rewrite Forall_forall in F.
      apply (F (fst p)); [now apply in_map|assumption].
    - apply Exists_exists in E2. destruct E2 as [p [Hp Q]]. rewrite Forall_forall in F.
      apply Q, F. now apply in_map. }
  subst ad. simpl in Ec, Em. rewrite app_nil_r in Ec, Em.
  unfold init_kinetic_species.
  assert (L : length (sp_charges s) = nk) by (rewrite Ec, map_length, firstn_length; lia).
  assert (L2 : length (sp_masses s) = nk) by (rewrite Em, map_length, firstn_length; lia).
  rewrite L. replace (length (sp_masses s) <? nk)%nat with false by lia.
  rewrite firstn_all2 by lia.
  unfold init_all_species in H. replace ((Z.of_nat nk <? 0) || (0 <? 0))%Z with false in H by lia.
  rewrite Nat2Z.id, read_all_ok in H by lia. cbn [bind Z.to_nat read_all] in H.
  destruct (deduce_adiabatic _) as [e i]. destruct (1 <? e + i)%nat; [discriminate|].
  match type of H with bind (species_new ?c ?m) _ = _ => destruct (species_new c m) as [s0| | |] eqn:N; try discriminate end.
  cbn in H. assert (s0 = s) by congruence. subst s0.
  assert (Hc : forall c m s, species_new c m = Ok s -> sp_charges s = c /\ sp_masses s = m).
  { clear. intros c m s. unfold species_new, check. destruct (2 <=? length c)%nat; [|discriminate]. simpl.
    destruct (find_electron c); [|discriminate]. intros H; injection H as <-. split; reflexivity. }
  destruct (Hc _ _ _ N) as [C1 C2]. rewrite C1, C2, N. reflexivity.
Qed.

(** an adiabatic electron is not recovered on restart *)
Theorem restart_adiabatic conf nk k fl s :
  init_all_species conf (Z.of_nat nk) 0 = Ok (k, fl, s) ->
  Forall (fun p => fst p <> -1) (firstn nk (cf_species conf)) ->
  init_kinetic_species (firstn (r_size k) (sp_charges s)) (sp_masses s) = Throw \/
  init_kinetic_species (firstn (r_size k) (sp_charges s)) (sp_masses s) = AssertFail.
Proof.
  intros H F.
  assert (Hk : (1 <= nk <= length (cf_species conf))%nat).
  { destruct nk as [|n]; [change (Z.of_nat 0) with 0%Z in H; pose proof (init_all_species_none conf 0) as H9; cbn in H9, H; congruence; discriminate|].
    destruct (le_lt_dec (S n) (length (cf_species conf))); [lia|].
    pose proof (init_all_species_missing conf (S n) 0) as H9; change (Z.of_nat 0) with 0%Z in H9; rewrite H9 in H by lia; discriminate. }
  destruct (init_all_species_ok conf nk 0 Hk) as [s' [ad [E [A [Ec [Em _]]]]]]; [lia|].
  change (Z.of_nat 0) with 0%Z in E. rewrite E in H. injection H as <- <- <-. cbn [r_size].
  assert (Lq : length (map fst (firstn nk (cf_species conf))) = nk) by (rewrite map_length, firstn_length; lia).
  rewrite Ec. rewrite firstn_app, Lq, Nat.sub_diag. cbn [firstn]. rewrite app_nil_r.
  rewrite firstn_all2 by lia. unfold init_kinetic_species. rewrite Lq.
  assert (Lm : length (sp_masses s') = nk) by (rewrite Em, app_length, map_length, !firstn_length; simpl; lia).
  rewrite Lm, Nat.ltb_irrefl.
  unfold species_new, check. rewrite Lq.
  destruct (2 <=? nk)%nat; cbn [bind]; [|right; reflexivity]. left.
  pose proof (find_electron_ok (map fst (firstn nk (cf_species conf)))) as G.
  destruct (find_electron _) as [z|]; [|reflexivity]. exfalso.
  destruct G as [j [_ [_ [N _]]]]. apply nth_error_In in N. apply in_map_iff in N.
  destruct N as [p [Q P]]. rewrite Forall_forall in F. exact (F p P Q).
Qed.

(** ** charge density *)
Lemma sum_species_ok s n f : (forall i, (i < n)%nat -> exists c, charge s (Z.of_nat i) = Ok c) ->
  forall cs, (forall i, (i < n)%nat -> charge s (Z.of_nat i) = Ok (cs i)) ->
  sum_species s n f = Ok (Rsum n (fun i => cs i * f i)).
Proof.
  intros _ cs. induction n as [|n IH]; intros H; simpl; [reflexivity|].
  rewrite IH by (intros; apply H; lia). simpl. rewrite H by lia. reflexivity.
Qed.

Theorem charge_density_ok s nk nv q f ix cs :
  (forall i, (i < nk)%nat -> charge s (Z.of_nat i) = Ok (cs i)) ->
  charge_density s nk nv q f ix =
  Ok (Rsum nk (fun isp => cs isp * Rsum nv (fun iv => q iv * f isp ix iv))).
Proof.
  intros H. unfold charge_density.
  assert (E : for_res nv (fun iv acc => let* v := sum_species s nk (fun isp => f isp ix iv) in Ok (acc + q iv * v)) 0 =
          Ok (Rsum nv (fun iv => q iv * Rsum nk (fun isp => cs isp * f isp ix iv)))).
  { induction nv as [|n IH]; simpl; [reflexivity|]. rewrite IH. simpl.
    rewrite (sum_species_ok s nk _ (fun i Hi => ex_intro _ _ (H i Hi)) cs H). reflexivity. }
  rewrite E. cbn [bind]. rewrite Z.eqb_refl. cbn [negb]. f_equal.
  rewrite (Rsum_ext nk (fun isp => cs isp * Rsum nv (fun iv => q iv * f isp ix iv))
            (fun isp => Rsum nv (fun iv => q iv * (cs isp * f isp ix iv)))).
  - rewrite Rsum_swap. apply Rsum_ext; intros. now rewrite Rsum_scal.
  - intros. rewrite <- Rsum_scal. apply Rsum_ext; intros; ring.
Qed.

(** ** Split solvers *)
Lemma half_opp dt : - dt / 2 = - (dt / 2).
Proof. lra. Qed.

Theorem split_vlasov_is_strang {St E} (ax : St -> R -> St) (av : St -> E -> R -> St) f e dt :
  split_vlasov St E ax av f e dt = strang (fun f t => av f e t) [ax] f dt.
Proof. reflexivity. Qed.

Theorem split_rhs_single_is_strang {St E} (b : St -> E -> R -> St) rhs f e dt :
  (length rhs <= 1)%nat ->
  split_rhs St E b rhs f e dt = strang (fun f t => b f e t) rhs f dt.
Proof. destruct rhs as [|r [|r' t]]; simpl; intros; try lia; reflexivity. Qed.

Lemma fold_push {St} (a : St -> R -> St) l f (t : R) :
  (forall p, In p l -> commute a p) ->
  fold_left (fun f s => s f t) l (a f t) = a (fold_left (fun f s => s f t) l f) t.
Proof.
  revert f. induction l as [|p l IH]; intros f H; simpl; [reflexivity|].
  rewrite <- (H p (or_introl eq_refl) f t t). apply IH. intros; apply H. now right.
Qed.

Lemma fold_rev_commute {St} (l : list (St -> R -> St)) f (t : R) :
  ForallOrdPairs commute l ->
  fold_left (fun f s => s f t) (rev l) f = fold_left (fun f s => s f t) l f.
Proof.
  revert f. induction l as [|a l IH]; intros f H; simpl; [reflexivity|].
  inversion H as [|? ? Ha Hl]; subst.
  rewrite fold_left_app. cbn [fold_left]. rewrite IH by assumption.
  symmetry. apply fold_push. rewrite Forall_forall in Ha. exact Ha.
Qed.

Theorem split_rhs_commuting_is_strang {St E} (b : St -> E -> R -> St) rhs f e dt :
  ForallOrdPairs commute rhs ->
  split_rhs St E b rhs f e dt = strang (fun f t => b f e t) rhs f dt.
Proof. intros H. unfold split_rhs, strang. now rewrite fold_rev_commute. Qed.

Lemma fold_reverse {St} (l : list (St -> R -> St)) f (t : R) :
  (forall p, In p l -> reversible p) ->
  fold_left (fun f s => s f (- t)) (rev l) (fold_left (fun f s => s f t) l f) = f.
Proof.
  revert f. induction l as [|a l IH]; intros f H; simpl; [reflexivity|].
  rewrite fold_left_app. cbn [fold_left]. rewrite IH by (intros; apply H; now right).
  apply (H a (or_introl eq_refl)).
Qed.

Theorem strang_reversible {St} (c : St -> R -> St) l :
  reversible c -> (forall p, In p l -> reversible p) -> reversible (strang c l).
Proof.
  intros Hc Hl f t. unfold strang. rewrite half_opp.
  rewrite <- (rev_involutive l) at 2.
  rewrite (fold_reverse (rev l)) by (intros p Hp; apply Hl; now apply in_rev).
  rewrite Hc. apply fold_reverse. exact Hl.
Qed.

Theorem strang_order {St} (c : St -> R -> St) l f dt :
  (forall p, In p l -> additive p /\ commute p c) -> ForallOrdPairs commute l ->
  strang c l f dt = c (fold_left (fun f s => s f dt) l f) dt.
Proof.
  intros Hl HP. unfold strang. rewrite fold_rev_commute by assumption.
  assert (Hout : forall g, fold_left (fun f s => s f (dt / 2)) l (c g dt) =
                      c (fold_left (fun f s => s f (dt / 2)) l g) dt).
  { clear f HP. induction l as [|a l IH]; intros g; simpl; [reflexivity|].
    destruct (Hl a (or_introl eq_refl)) as [_ Hc]. rewrite (Hc g dt (dt / 2)).
    apply IH. intros; apply Hl; now right. }
  rewrite Hout. f_equal. clear Hout. revert f. induction l as [|a l IH]; intros f; simpl; [reflexivity|].
  inversion HP as [|? ? Ha Hl']; subst. rewrite Forall_forall in Ha.
  rewrite <- IH; [|intros; apply Hl; now right|assumption].
  rewrite !(fold_push a l) by exact Ha.
  rewrite <- (fold_push a l) by exact Ha.
  destruct (Hl a (or_introl eq_refl)) as [Hadd _].
  assert (G : forall g, fold_left (fun f s => s f (dt/2)) l (a (a g (dt/2)) (dt/2)) =
              fold_left (fun f s => s f (dt/2)) l (a g dt)).
  { intros g. rewrite Hadd. do 2 f_equal. lra. }
  rewrite fold_push by exact Ha. rewrite <- fold_push by exact Ha.
  (* the inner a commutes with the fold at different times *)
  assert (Hc2 : forall g s t, fold_left (fun f p => p f s) l (a g t) = a (fold_left (fun f p => p f s) l g) t).
  { clear -Ha. induction l as [|p l IH]; intros g s t; simpl; [reflexivity|].
    rewrite <- (Ha p (or_introl eq_refl) g s t). apply IH. intros; apply Ha; now right. }
  rewrite !Hc2. rewrite Hadd. f_equal. lra.
Qed.

Theorem vlasov_reversible {St E} (ax : St -> R -> St) (av : St -> E -> R -> St) e :
  reversible ax -> reversible (fun f t => av f e t) ->
  reversible (fun f t => split_vlasov St E ax av f e t).
Proof.
  intros Hx Hv f t. rewrite !split_vlasov_is_strang.
  apply (strang_reversible (fun f t => av f e t) [ax]); [assumption|].
  intros p [<-|[]]. assumption.
Qed.

(** two right-hand sides, a translation and a dilation of the line *)
Definition shift (x t : R) : R := x + t.
Definition dilate (x t : R) : R := x * exp t.

Theorem split_rhs_not_reversible h : h <> 0 ->
  reversible shift /\ reversible dilate /\
  forall x e, split_rhs R unit (fun x _ _ => x) [shift; dilate]
             (split_rhs R unit (fun x _ _ => x) [shift; dilate] x e h) e (- h) <> x.
Proof.
  intros Hh. split; [|split].
  - intros x t. unfold shift. ring.
  - intros x t. unfold dilate. rewrite Rmult_assoc, <- exp_plus, Rplus_opp_r, exp_0. ring.
  - intros x e. unfold split_rhs. cbn [fold_left]. unfold shift, dilate. rewrite half_opp.
    set (k := h / 2). assert (Hk : k <> 0) by (unfold k; lra). clearbody k. clear Hh.
    rewrite exp_Ropp. pose proof (exp_pos k) as P. assert (N : exp k <> 1).
    { intros H. apply Hk. apply exp_inv. rewrite H, exp_0. reflexivity. }
    set (E := exp k) in *. clearbody E.
    intros H.
    assert (H' : k * (1 - / E * / E) = 0).
    { match type of H with ?L = x => replace (k * (1 - / E * / E)) with (L - x) by (field; lra) end.
      rewrite H. ring. }
    apply Rmult_integral in H'. destruct H' as [H'|H']; [lra|].
    assert (E * E = 1). { apply (Rmult_eq_reg_l (/ E * / E)). replace (/ E * / E * (E * E)) with 1 by (field; lra). lra.
      assert (0 < / E) by now apply Rinv_0_lt_compat. nra. }
    assert (E = 1) by nra. contradiction.
Qed.

(** ** Predictor-corrector *)
Section PC.
Context {St Phi E : Type}.
Variable boltzmann : St -> E -> R -> St.
Variable solve : St -> Phi * E.
Let poisson (f : St) (_ : Phi * E) := solve f.

Lemma pc_loop t0 dt f0 fl n :
  for_loop n (pc_step St Phi E boltzmann poisson t0 dt) (f0, fl, []) =
  (pc_state boltzmann solve dt f0 n,
   snd (fst (for_loop n (pc_step St Phi E boltzmann poisson t0 dt) (f0, fl, []))),
   map (fun k => let f := pc_state boltzmann solve dt f0 k in
                Iteration St Phi k (t0 + INR k * dt) f (fst (solve f))) (seq 0 n)).
Proof.
  induction n as [|n IH]; [reflexivity|].
  cbn [for_loop]. rewrite IH at 1.
  assert (IH2 := IH). destruct (for_loop n _ _) as [[f fl'] ev] eqn:L. cbn [fst snd] in IH2.
  injection IH2 as Ef Eev. subst f ev.
  rewrite seq_S, map_app. cbn [map plus].
  unfold pc_step, poisson. cbn [fst snd]. reflexivity.
Qed.

Theorem predcorr_ok fields0 f0 t0 dt steps :
  predcorr St Phi E boltzmann poisson fields0 f0 t0 dt steps =
  (pc_state boltzmann solve dt f0 (Z.to_nat steps),
   pc_output boltzmann solve t0 dt f0 (Z.to_nat steps)).
Proof.
  unfold predcorr. rewrite pc_loop. unfold pc_output. unfold poisson. reflexivity.
Qed.

Lemma pc_state_add dt f0 n m :
  pc_state boltzmann solve dt f0 (n + m) = pc_state boltzmann solve dt (pc_state boltzmann solve dt f0 n) m.
Proof.
  induction m as [|m IH]; [rewrite Nat.add_0_r; reflexivity|].
  rewrite Nat.add_succ_r. cbn [pc_state]. rewrite IH. reflexivity.
Qed.
End PC.

(** the outputs of a run forget its iteration counter: same physical content *)
Definition snapshot {St Phi} (e : event St Phi) : R * St * Phi :=
  match e with Iteration _ _ _ t f p => (t, f, p) | LastIteration _ _ _ t f p => (t, f, p) end.

Theorem predcorr_restart {St Phi E} (boltzmann : St -> E -> R -> St) (solve : St -> Phi * E)
  fields0 fields1 f0 t0 dt n m :
  (0 <= n)%Z -> (0 <= m)%Z ->
  let run := predcorr St Phi E boltzmann (fun f _ => solve f) in
  let '(f1, out1) := run fields0 f0 t0 dt n in
  let '(f2, out2) := run fields1 f1 (t0 + IZR n * dt) dt m in
  let '(f12, out12) := run fields0 f0 t0 dt (n + m)%Z in
  f12 = f2 /\ map snapshot out12 = map snapshot (removelast out1) ++ map snapshot out2.
Proof.
  intros Hn Hm run. unfold run. rewrite !(predcorr_ok boltzmann solve).
  replace (Z.to_nat (n + m)) with (Z.to_nat n + Z.to_nat m)%nat by lia.
  split; [apply pc_state_add|].
  unfold pc_output. rewrite removelast_last, !map_app, !map_map. cbn [map snapshot].
  rewrite seq_app, map_app. cbn [plus]. rewrite <- app_assoc. f_equal.
  assert (T : forall k, t0 + INR (Z.to_nat n + k) * dt = t0 + IZR n * dt + INR k * dt).
  { intros k. rewrite plus_INR, (INR_IZR_INZ (Z.to_nat n)), Z2Nat.id by lia. ring. }
  f_equal.
  - rewrite <- (Nat.add_0_r (Z.to_nat n)) at 1.
    assert (S : forall a b c, seq (a + b) c = map (fun k => (a + k)%nat) (seq b c)).
    { clear. intros a b c. revert b. induction c as [|c IH]; intros b; simpl; [reflexivity|].
      f_equal. rewrite <- IH. f_equal. lia. }
    rewrite S, map_map. apply map_ext. intros k. rewrite pc_state_add, T. reflexivity.
  - rewrite pc_state_add, T. reflexivity.
Qed.

(** with a solver that does not fill its outputs the result depends on the uninitialised field *)
Theorem predcorr_null_uninitialised :
  exists (St Phi E : Type) (boltzmann : St -> E -> R -> St) f0 t0 dt steps fields0 fields1,
    fst (predcorr St Phi E boltzmann null_qnsolver fields0 f0 t0 dt steps) <>
    fst (predcorr St Phi E boltzmann null_qnsolver fields1 f0 t0 dt steps).
Proof.
  exists R, R, R, (fun f e t => f + e * t), 0, 0, 1, 1%Z, (0, 0), (0, 1).
  unfold predcorr. change (Z.to_nat 1) with 1%nat. cbn [for_loop]. unfold pc_step, null_qnsolver. cbn [fst snd app].
  lra.
Qed.
