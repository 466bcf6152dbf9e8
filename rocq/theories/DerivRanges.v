(** Proofs about derivative fields (C37): slices, views, lifetime and copies. *)
From Verif Require Export DerivMain.
From Coq Require Import ZifyBool Permutation.
Open Scope nat_scope.
Local Opaque Nat.div Nat.modulo Z.div Z.modulo.

Lemma map_res_inv {A B} (g : A -> res B) (dflt : B) l ys : map_res g l = Ok ys ->
  (forall x, In x l -> exists y, g x = Ok y) /\
  ys = map (fun x => match g x with Ok y => y | _ => dflt end) l.
Proof.
  revert ys. induction l as [|x l IH]; intros ys H; simpl in H.
  - injection H as <-. split; [intros ? []|reflexivity].
  - destruct (g x) as [y| | |] eqn:E; try discriminate. cbn [bind] in H.
    destruct (map_res g l) as [zs| | |] eqn:E'; try discriminate. injection H as <-.
    destruct (IH _ eq_refl) as [H1 H2]. split.
    + intros z [<-|Hz]; eauto.
    + simpl. rewrite E. now f_equal.
Qed.

Lemma map_res_total {A B} (g : A -> res B) l : (forall x, In x l -> exists y, g x = Ok y) ->
  exists ys, map_res g l = Ok ys.
Proof.
  induction l as [|x l IH]; intros H; simpl; eauto.
  destruct (H x) as [y ->]; simpl; auto. destruct IH as [ys ->]; simpl; eauto.
  intros; apply H; simpl; auto.
Qed.

(** ** Pairs along one dimension *)
Definition ppair (f : shape) (A : nat) (fr : tag -> range) (t : tag) : res (Z * Z) :=
  match t with
  | Phys d =>
      if (has_deriv f d && holds_deriv f A (Der d))%bool
      then let* _ := check (slice_contains (dslice f d) (r_front (fr t))
                            && (Nat.eqb (r_ext (fr t)) 1 || Nat.eqb (s_stride (dslice f d)) 1))%bool in
           let* a := get_index f d (r_front (fr t)) in
           let* b := get_index f d (r_back (fr t)) in
           Ok (a, b + 1)%Z
      else Ok (r_front (fr t) - r_front (phys f d), r_back (fr t) + 1 - r_front (phys f d))%Z
  | Der _ =>
      if holds_deriv f A t
      then Ok (r_front (fr t) - 1, r_back (fr t) + 1 - 1)%Z
      else let* _ := check (Z.eqb (r_front (fr t)) 0) in
           let* _ := check (Z.eqb (r_back (fr t)) (r_front (fr t))) in
           Ok (0, 1)%Z
  end.

Lemma slicer_ppair f fr A t (rg : tag -> option range) : rg t = Some (fr t) ->
  get_slicer_for_range f rg A t = (let* (a, b) := ppair f A fr t in Ok (Pair a b)).
Proof.
  intros H. unfold get_slicer_for_range, ppair. rewrite H. destruct t as [d|d].
  - destruct (_ && _)%bool; auto. destruct (check _); cbn [bind]; auto.
    destruct (get_index f d (r_front (fr (Phys d)))); cbn [bind]; auto.
    destruct (get_index f d (r_back (fr (Phys d)))); cbn [bind]; auto.
  - destruct (holds_deriv _ _ _); auto. destruct (check _); cbn [bind]; auto. destruct (check _); auto.
Qed.

Lemma sub_pairs_inv {T} (a b : T -> Z) l : forall ds off q,
  submdspan_dims off ds (map (fun t => Pair (a t) (b t)) l) = Ok q ->
  Forall2 (fun t (es : nat * nat) => (0 <= a t /\ a t <= b t /\ b t <= Z.of_nat (fst es))%Z) l ds /\
  Forall2 (fun t (es : nat * nat) => fst es = Z.to_nat (b t - a t)) l (snd q).
Proof.
  induction l as [|t l IH]; intros [|[e st] ds] off q H; simpl in H; try discriminate.
  - injection H as <-. split; constructor.
  - destruct (_ && _)%bool eqn:E; [|discriminate].
    destruct (submdspan_dims _ ds _) as [[o r]| | |] eqn:E'; try discriminate. cbn [bind] in H.
    injection H as <-. apply IH in E'. simpl in E'. split; constructor; try tauto; simpl; lia.
Qed.

Lemma sub_pairs_ok {T} (a b : T -> Z) l : forall ds off,
  Forall2 (fun t (es : nat * nat) => (0 <= a t /\ a t <= b t /\ b t <= Z.of_nat (fst es))%Z) l ds ->
  exists q, submdspan_dims off ds (map (fun t => Pair (a t) (b t)) l) = Ok q.
Proof.
  induction l as [|t l IH]; intros ds off H; inversion H as [|? [e st] ? ds' H1 H2]; subst; simpl; eauto.
  simpl in H1. replace (_ && _)%bool with true by lia.
  destruct (IH ds' (off + a t * Z.of_nat st)%Z H2) as [[o r] ->]. simpl. eauto.
Qed.

(** fixing some of the dimensions *)
Lemma sub_fix_inv {T} (q : T -> bool) (k : T -> Z) (ext : T -> nat) l : forall ds off o r,
  Forall2 (fun t (es : nat * nat) => ext t = fst es) l ds ->
  submdspan_dims off ds (map (fun t => if q t then At (k t) else FullExtent) l) = Ok (o, r) ->
  Forall2 (fun t (es : nat * nat) => ext t = fst es) (filter (fun t => negb (q t)) l) r.
Proof.
  induction l as [|t l IH]; intros [|[e st] ds] off o r HF H; simpl in H; try discriminate.
  - injection H as <- <-. constructor.
  - inversion HF; subst. simpl. destruct (q t); simpl.
    + destruct (_ && _)%bool; [|discriminate]. eapply IH; eauto.
    + destruct (submdspan_dims off ds _) as [[o' r']| | |] eqn:E; try discriminate. cbn [bind] in H.
      injection H as <- <-. constructor; auto. eapply IH; eauto.
Qed.

Lemma sub_fix_ok {T} (q : T -> bool) (k : T -> Z) (ext : T -> nat) l : forall ds off,
  Forall2 (fun t (es : nat * nat) => ext t = fst es) l ds ->
  (forall t, In t l -> q t = true -> inb (k t) (ext t)) ->
  exists c, submdspan_dims off ds (map (fun t => if q t then At (k t) else FullExtent) l) = Ok c.
Proof.
  induction l as [|t l IH]; intros ds off HF H; inversion HF as [|? [e st] ? ds' H1 H2]; subst; simpl; eauto.
  simpl in H1. destruct (q t) eqn:Eq.
  - assert (Hk : inb (k t) (ext t)) by (apply H; simpl; auto). unfold inb in Hk.
    replace (_ && _)%bool with true by lia. apply IH; auto. intros; apply H; simpl; auto.
  - destruct (IH ds' off H2) as [[o r] ->]; [intros; apply H; simpl; auto|]. simpl. eauto.
Qed.

Lemma comp_pairs_fix {T} (a b k : T -> Z) (q : T -> bool) l :
  comp (map (fun t => Pair (a t) (b t)) l) (map (fun t => if q t then At (k t) else FullExtent) l) =
  map (fun t => if q t then At (a t + k t) else Pair (a t) (b t)) l.
Proof.
  induction l as [|t l IH]; simpl; auto. destruct (q t); simpl; f_equal; auto.
Qed.

Lemma comp_rest {T} (a b k : T -> Z) (q : T -> bool) l k2 :
  comp (map (fun t => if q t then At (k t) else Pair (a t) (b t)) l)
       (map (fun t => At (k2 t)) (filter (fun t => negb (q t)) l)) =
  map At (map (fun t => if q t then k t else (a t + k2 t)%Z) l).
Proof.
  induction l as [|t l IH]; simpl; auto. destruct (q t); simpl; f_equal; auto.
Qed.

Lemma comp_rest_full {T} (k : T -> Z) (q : T -> bool) l k2 :
  comp (map (fun t => if q t then At (k t) else FullExtent) l)
       (map (fun t => At (k2 t)) (filter (fun t => negb (q t)) l)) =
  map At (map (fun t => if q t then k t else k2 t) l).
Proof.
  induction l as [|t l IH]; simpl; auto. destruct (q t); simpl; f_equal; auto.
Qed.

Lemma Forall2_map_iff {A B C} (R : B -> C -> Prop) (g : A -> B) l l' :
  Forall2 R (map g l) l' <-> Forall2 (fun x y => R (g x) y) l l'.
Proof.
  revert l'. induction l as [|x l IH]; intros l'; simpl; split; intros H; inversion H; subst; constructor; auto;
    apply IH; auto.
Qed.

Lemma filter_map_swap {A B} (g : A -> B) (p : B -> bool) l :
  filter p (map g l) = map g (filter (fun x => p (g x)) l).
Proof. induction l as [|x l IH]; simpl; auto. destruct (p (g x)); simpl; f_equal; auto. Qed.

Section Slices.
  Variables (f : shape) (Hf : wf_shape f).
  Variables (p : nat) (fields : list view) (HF : fields_at f p fields).

  (** the range along a tag, with the defaults of get_internal_field *)
  Definition fr_of (rg : tag -> option range) (t : tag) : range :=
    match rg t with
    | Some r => r
    | None => match t with Phys d => phys f d | Der _ => Range 0 1 end
    end.
  Definition implicit (rg : tag -> option range) (t : tag) : bool :=
    match rg t with Some _ => false | None => is_deriv_dim t end.

  Lemma ppair_ext A fr t a b : In t (dims f) -> ppair f A fr t = Ok (a, b) ->
    Z.to_nat (b - a) = r_ext (fr t).
  Proof.
    intros Ht. unfold ppair, r_back. destruct t as [d|d].
    - destruct (has_deriv f d) eqn:Ed; cbn [andb].
      + destruct (holds_deriv f A (Der d)).
        * destruct (slice_contains _ _ && _)%bool eqn:E; [|discriminate]. cbn [check bind].
          apply andb_true_iff in E. destruct E as [E1 E2].
          destruct (get_index f d (r_front _)) as [x| | |] eqn:Ea; try discriminate. cbn [bind].
          destruct (get_index f d (_ - 1)) as [y| | |] eqn:Eb; try discriminate. cbn [bind].
          intros H. assert (a = x) by congruence. assert (b = y + 1)%Z by congruence. subst.
          pose proof (stride_pos f Hf d Ed). apply get_index_inv in Ea, Eb; auto.
          destruct Ea as [_ Ea], Eb as [_ Eb].
          apply orb_true_iff in E2. destruct E2 as [E2|E2]; apply Nat.eqb_eq in E2; rewrite E2 in Eb; rewrite ?E2 in Ea; nia.
        * intros [= <- <-]. lia.
      + intros [= <- <-]. lia.
    - destruct (holds_deriv f A (Der d)).
      + intros [= <- <-]. lia.
      + destruct (Z.eqb_spec (r_front (fr (Der d))) 0); [|discriminate]. cbn [check bind].
        destruct (Z.eqb_spec (r_front (fr (Der d)) + Z.of_nat (r_ext (fr (Der d))) - 1) (r_front (fr (Der d))));
          [|discriminate]. intros [= <- <-]. lia.
  Qed.

  Lemma ppair_pos A fr t a b idx : In t (dims f) -> ppair f A fr t = Ok (a, b) ->
    in_range (fr t) (idx t) -> pos f A idx t = Ok (a + (idx t - r_front (fr t)))%Z.
  Proof.
    intros Ht. unfold ppair, r_back, pos, in_range. destruct t as [d|d].
    - destruct (has_deriv f d) eqn:Ed; cbn [andb].
      + destruct (holds_deriv f A (Der d)).
        * destruct (slice_contains _ _ && _)%bool eqn:E; [|discriminate]. cbn [check bind].
          apply andb_true_iff in E. destruct E as [E1 E2].
          destruct (get_index f d (r_front _)) as [x| | |] eqn:Ea; try discriminate. cbn [bind].
          destruct (get_index f d (_ - 1)) as [y| | |] eqn:Eb; try discriminate. cbn [bind].
          intros H Hi. assert (a = x) by congruence. subst x.
          pose proof (stride_pos f Hf d Ed) as Hs.
          apply orb_true_iff in E2. destruct E2 as [E2|E2]; apply Nat.eqb_eq in E2.
          -- rewrite E2 in Hi. replace (idx (Phys d)) with (r_front (fr (Phys d))) by lia. rewrite Ea. f_equal. lia.
          -- apply get_index_inv in Ea, Eb; auto.
             destruct Ea as [(ka & Ka & Ka') Ea], Eb as [(kb & Kb & Kb') Eb]. rewrite E2 in Ea, Eb, Ka', Kb'.
             assert (Hc : in_slice (dslice f d) (idx (Phys d))).
             { exists (Z.to_nat (idx (Phys d) - s_front (dslice f d))). rewrite E2. lia. }
             destruct (get_index_ok f d _ Hs Hc) as (k & -> & _ & Ek). rewrite E2 in Ek. f_equal. lia.
        * intros H Hi. f_equal. assert (a = r_front (fr (Phys d)) - r_front (phys f d))%Z by congruence. lia.
      + intros H Hi. f_equal. assert (a = r_front (fr (Phys d)) - r_front (phys f d))%Z by congruence. lia.
    - destruct (holds_deriv f A (Der d)).
      + intros H Hi. f_equal. assert (a = r_front (fr (Der d)) - 1)%Z by congruence. lia.
      + destruct (Z.eqb_spec (r_front (fr (Der d))) 0) as [E|]; [|discriminate]. cbn [check bind].
        destruct (Z.eqb_spec (r_front (fr (Der d)) + Z.of_nat (r_ext (fr (Der d))) - 1) (r_front (fr (Der d))));
          [|discriminate]. intros H Hi. assert (a = 0)%Z by (cbn in H; congruence). subst.
        replace (idx (Der d)) with 0%Z by lia. rewrite E. reflexivity.
  Qed.

  Lemma range_field_inv rg fld : get_internal_field_range f fields rg = Ok fld ->
    let A := get_array_index f (fun t => r_front (fr_of rg t)) in
    exists a b o1 ds1 o2 ds2,
      (forall t, In t (dims f) -> ppair f A (fr_of rg) t = Ok (a t, b t)) /\
      submdspan_dims 0 (layout_right (sizes f A)) (map (fun t => Pair (a t) (b t)) (dims f)) = Ok (o1, ds1) /\
      submdspan_dims o1 ds1
        (map (fun t => if implicit rg t then At (0 - r_front (fr_of rg t))%Z else FullExtent) (dims f)) = Ok (o2, ds2) /\
      fld = Field (View (p + A) o2 ds2)
              (map (fun t => (t, fr_of rg t)) (filter (fun t => negb (implicit rg t)) (dims f))).
  Proof.
    intros H A. unfold get_internal_field_range in H.
    assert (EA : get_array_index f (fun t => r_front match rg t with Some r => r | None => Range 0 1 end) = A).
    { apply array_index_ext; auto. intros [d|d] _ Hd; [discriminate|]. unfold fr_of.
      destruct (rg (Der d)); tauto. }
    cbn zeta in H. rewrite EA in H.
    rewrite (rd_fields f p fields HF) in H by (apply array_index_lt; auto). cbn [bind] in H.
    set (full := fun t => match rg t with
             | Some r => Some r
             | None => match t with Phys d => Some (phys f d) | Der _ => Some (Range 0 1) end end) in H.
    assert (Hfull : forall t, full t = Some (fr_of rg t)).
    { intros t. unfold full, fr_of. destruct (rg t); auto. destruct t; auto. }
    destruct (map_res (get_slicer_for_range f full A) (dims f)) as [ss| | |] eqn:Es; try discriminate.
    cbn [bind] in H. apply (map_res_inv _ FullExtent) in Es. destruct Es as [Es1 Es2].
    set (g := fun t => match ppair f A (fr_of rg) t with Ok q => q | _ => (0, 0)%Z end).
    assert (Hg : forall t, In t (dims f) -> ppair f A (fr_of rg) t = Ok (fst (g t), snd (g t))).
    { intros t Ht. destruct (Es1 t Ht) as [y Hy]. rewrite (slicer_ppair f (fr_of rg)) in Hy by auto.
      unfold g. destruct (ppair f A (fr_of rg) t) as [[u v]| | |]; try discriminate. reflexivity. }
    assert (Ess : ss = map (fun t => Pair (fst (g t)) (snd (g t))) (dims f)).
    { rewrite Es2. apply map_ext_in. intros t Ht. rewrite (slicer_ppair f (fr_of rg)) by auto.
      rewrite (Hg t Ht). reflexivity. }
    rewrite Ess in H. unfold submdspan, make_internal_mdspan in H. cbn [v_off v_dims v_block] in H.
    fold (sizes f A) in H.
    destruct (submdspan_dims 0 _ _) as [[o1 ds1]| | |] eqn:E1; try discriminate. cbn [bind] in H.
    unfold field_slice in H. cbn [f_view f_dom] in H. unfold submdspan in H. cbn [v_off v_dims v_block] in H.
    rewrite map_map in H. cbn [fst snd] in H.
    rewrite map_ext with (g := fun t => if implicit rg t then At (0 - r_front (fr_of rg t))%Z else FullExtent) in H.
    2:{ intros t. unfold implicit, fr_of. destruct (rg t); auto. destruct t; auto. }
    destruct (submdspan_dims o1 ds1 _) as [[o2 ds2]| | |] eqn:E2; try discriminate. cbn [bind] in H.
    exists (fun t => fst (g t)), (fun t => snd (g t)), o1, ds1, o2, ds2.
    split; auto. split; auto. split; auto.
    assert (Efl : forall x y, Ok x = @Ok field y -> x = y) by (intros; congruence). apply Efl in H. rewrite <- H.
    f_equal. rewrite filter_map_swap. cbn [fst]. rewrite map_ext with (g := fun t => (t, fr_of rg t)).
    - f_equal. apply filter_ext. intros t. unfold implicit. destruct (rg t); auto. destruct (is_deriv_dim t); auto.
    - intros t. unfold fr_of. destruct (rg t); auto. destruct t; auto.
  Qed.

  Lemma front_zero rg A a b t : In t (dims f) -> is_deriv_dim t = true ->
    A = get_array_index f (fun t => r_front (fr_of rg t)) ->
    ppair f A (fr_of rg) t = Ok (a, b) -> (0 <= a)%Z ->
    forall i, in_range (fr_of rg t) i -> (r_front (fr_of rg t) = 0 <-> i = 0)%Z.
  Proof.
    intros Ht Hd EA H Ha i Hi. destruct t as [d|d]; [discriminate|]. unfold ppair in H.
    rewrite EA, holds_array_index in H by auto. unfold in_range, r_back in *.
    destruct (Z.eqb_spec (r_front (fr_of rg (Der d))) 0) as [E|E]; cbn [negb] in H.
    - cbn [check bind] in H.
      destruct (Z.eqb_spec (r_front (fr_of rg (Der d)) + Z.of_nat (r_ext (fr_of rg (Der d))) - 1)
                  (r_front (fr_of rg (Der d)))); [|discriminate]. split; lia.
    - assert (a = r_front (fr_of rg (Der d)) - 1)%Z by congruence. split; lia.
  Qed.

  Lemma request_range rg idx t : in_request f rg idx -> In t (dims f) -> in_range (fr_of rg t) (idx t).
  Proof.
    intros H Ht. specialize (H t Ht). unfold fr_of. destruct (rg t); auto.
    destruct t; auto. unfold in_range. simpl. lia.
  Qed.

  Lemma Forall2_in_l {A B} (R : A -> B -> Prop) l l' x : Forall2 R l l' -> In x l -> exists y, R x y.
  Proof. induction 1; intros []; subst; eauto. Qed.

  Lemma range_field_sized rg fld : get_internal_field_range f fields rg = Ok fld -> well_sized fld.
  Proof.
    intros H. apply range_field_inv in H. cbn zeta in H.
    destruct H as (a & b & o1 & ds1 & o2 & ds2 & Hp & E1 & E2 & ->).
    unfold well_sized. cbn [f_dom f_view v_dims]. rewrite Forall2_map_iff. cbn [snd].
    apply sub_pairs_inv in E1. destruct E1 as [_ E1]. cbn [snd] in E1.
    eapply (sub_fix_inv _ (fun t => 0 - r_front (fr_of rg t))%Z (fun t => r_ext (fr_of rg t))); [|exact E2].
    clear E2. assert (G : forall l d1, incl l (dims f) ->
       Forall2 (fun t (es : nat * nat) => fst es = Z.to_nat (b t - a t)) l d1 ->
       Forall2 (fun t (es : nat * nat) => r_ext (fr_of rg t) = fst es) l d1).
    { induction l as [|t l IH]; intros d1 Hl Hd; inversion Hd; subst; constructor.
      - rewrite H1. symmetry. eapply ppair_ext; [|apply Hp]; apply Hl; simpl; auto.
      - apply IH; auto. apply incl_cons_inv in Hl; tauto. }
    apply G; auto using incl_refl.
  Qed.

  Lemma range_field_cells rg fld idx : get_internal_field_range f fields rg = Ok fld ->
    in_request f rg idx ->
    exists c, field_call fld idx = Ok c /\ call f fields (fun t => Some (idx t)) = Ok c.
  Proof.
    intros H Hreq. pose proof (range_field_sized _ _ H) as Hws.
    apply range_field_inv in H. cbn zeta in H.
    destruct H as (a & b & o1 & ds1 & o2 & ds2 & Hp & E1 & E2 & ->).
    set (A := get_array_index f (fun t => r_front (fr_of rg t))) in *.
    set (rest := filter (fun t => negb (implicit rg t)) (dims f)) in *.
    unfold field_call, submdspan. cbn [f_dom f_view v_dims v_off v_block]. rewrite map_map. cbn [fst snd].
    unfold well_sized in Hws. cbn [f_dom f_view v_dims] in Hws. rewrite Forall2_map_iff in Hws. cbn [snd] in Hws.
    assert (Hin : Forall2 inb (map (fun t => (idx t - r_front (fr_of rg t))%Z) rest) (map fst ds2)).
    { rewrite Forall2_map_iff. assert (Hr : incl rest (dims f)) by (intros x Hx; apply filter_In in Hx; tauto).
      clear - Hws Hr Hreq. induction Hws; simpl; constructor.
      - apply incl_cons_inv in Hr. destruct Hr as [Hr _].
        pose proof (request_range rg idx x Hreq Hr) as G. unfold in_range, inb in *. lia.
      - apply IHHws. apply incl_cons_inv in Hr; tauto. }
    destruct (sub_at_ok ds2 _ o2 Hin) as [o3 E3]. rewrite map_map in E3.
    rewrite E3. cbn [bind]. exists (p + A, o3). split; [reflexivity|].
    pose proof (sub_comp _ _ _ _ _ _ _ E1 E2) as E12. rewrite comp_pairs_fix in E12.
    pose proof (sub_comp _ _ _ _ _ _ _ E12 E3) as E123. unfold rest in E123. rewrite comp_rest in E123.
    apply sub_pairs_inv in E1. destruct E1 as [E1 _].
    assert (EA : get_array_index f idx = A).
    { symmetry. apply array_index_ext; auto. intros t Ht Hd.
      destruct (Forall2_in_l _ _ _ _ E1 Ht) as (es & Ha & _).
      eapply front_zero; eauto. now apply request_range. }
    set (ks := map (fun t => if implicit rg t then (a t + (0 - r_front (fr_of rg t)))%Z
                             else (a t + (idx t - r_front (fr_of rg t)))%Z) (dims f)) in *.
    assert (Hks : posns f A idx ks).
    { unfold posns, ks. assert (G : forall l, incl l (dims f) ->
        Forall2 (fun t k => pos f A idx t = Ok k) l
          (map (fun t => if implicit rg t then (a t + (0 - r_front (fr_of rg t)))%Z
                         else (a t + (idx t - r_front (fr_of rg t)))%Z) l)).
      { induction l as [|t l IH]; intros Hl; simpl; constructor.
        - apply incl_cons_inv in Hl. destruct Hl as [Ht _].
          rewrite (ppair_pos A (fr_of rg) t _ _ idx Ht (Hp t Ht)); [|now apply request_range].
          destruct (implicit rg t) eqn:Ei; auto. do 2 f_equal.
          specialize (Hreq t Ht). unfold implicit in Ei. destruct (rg t); [discriminate|].
          destruct t; [discriminate|]. lia.
        - apply IH. apply incl_cons_inv in Hl; tauto. }
      apply G, incl_refl. }
    destruct (call_eq f Hf p fields HF (fun t => Some (idx t)) idx) as [(ks' & P' & E')|(_ & t & Ht & E')].
    - intros t _. auto.
    - rewrite E', EA. rewrite EA in P'. rewrite (posns_unique f A idx _ _ P' Hks).
      rewrite E123. reflexivity.
    - rewrite EA in E'. exfalso.
      rewrite (ppair_pos A (fr_of rg) t _ _ idx Ht (Hp t Ht)) in E'; [discriminate|now apply request_range].
  Qed.

  Lemma range_field_dom rg fld t r : get_internal_field_range f fields rg = Ok fld ->
    (In (t, r) (f_dom fld) <->
     In t (dims f) /\ (rg t = Some r \/ (rg t = None /\ exists d, t = Phys d /\ r = phys f d))).
  Proof.
    intros H. apply range_field_inv in H. cbn zeta in H.
    destruct H as (a & b & o1 & ds1 & o2 & ds2 & Hp & E1 & E2 & ->). cbn [f_dom].
    rewrite in_map_iff. unfold fr_of, implicit. split.
    - intros (u & Eu & Hu). apply filter_In in Hu. destruct Hu as [Hu Hi].
      assert (u = t) by congruence. subst u. split; auto.
      destruct (rg t) as [r'|]; [left; congruence|].
      destruct t as [d|d]; [|discriminate]. right. split; auto. exists d. split; auto. congruence.
    - intros (Ht & Hr). exists t. split.
      + destruct Hr as [->|(-> & d & -> & ->)]; reflexivity.
      + apply filter_In. split; auto. destruct Hr as [->|(-> & d & -> & ->)]; reflexivity.
  Qed.

  (** ** Which requests are accepted *)
  Lemma range_field_accepts rg : sensible_request f rg -> exists fld, get_internal_field_range f fields rg = Ok fld.
  Proof.
    intros Hs. unfold get_internal_field_range. cbn zeta.
    set (A := get_array_index f (fun t => r_front match rg t with Some r => r | None => Range 0 1 end)).
    rewrite (rd_fields f p fields HF) by (apply array_index_lt; auto). cbn [bind].
    set (full := fun t => match rg t with
             | Some r => Some r
             | None => match t with Phys d => Some (phys f d) | Der _ => Some (Range 0 1) end end).
    assert (Hfull : forall t, full t = Some (fr_of rg t)).
    { intros t. unfold full, fr_of. destruct (rg t); auto. destruct t; auto. }
    assert (Hbit : forall d, In (Der d) (dims f) ->
       holds_deriv f A (Der d) = negb (Z.eqb (r_front (fr_of rg (Der d))) 0)).
    { intros d Hd. unfold A. rewrite holds_array_index by auto. unfold fr_of. destruct (rg (Der d)); reflexivity. }
    assert (Hask : forall d, asks_deriv f rg d <-> (has_deriv f d && holds_deriv f A (Der d))%bool = true).
    { intros d. rewrite andb_true_iff, has_deriv_iff by auto. unfold asks_deriv. split.
      - intros (Hd & r & Er & Hr). split; auto. rewrite Hbit by auto. unfold fr_of. rewrite Er. lia.
      - intros (Hd & Hh). split; auto. rewrite Hbit in Hh by auto. unfold fr_of in Hh.
        destruct (rg (Der d)) as [r|]; [exists r; split; auto; lia|]. simpl in Hh. discriminate. }
    assert (Hpp : forall t, In t (dims f) -> exists a b, ppair f A (fr_of rg) t = Ok (a, b) /\
              (0 <= a /\ a <= b /\ b <= Z.of_nat (get_mdspan_size f A t))%Z).
    { intros t Ht. destruct t as [d|d]; unfold ppair, get_mdspan_size.
      - assert (Hr : exists r, fr_of rg (Phys d) = r /\
           (rg (Phys d) = Some r \/ (rg (Phys d) = None /\ exists d', Phys d = Phys d' /\ r = phys f d'))).
        { unfold fr_of. destruct (rg (Phys d)) as [r|] eqn:Er; eauto. exists (phys f d). split; auto. right. split; auto. exists d. auto. }
        destruct Hr as (r & -> & Hr). destruct (Hs (Phys d) r Ht Hr) as [Hne Hc].
        destruct (has_deriv f d && holds_deriv f A (Der d))%bool eqn:Eb.
        + destruct Hc as [[_ Hc]|[Hc _]]; [|exfalso; apply Hc, Hask; auto].
          apply andb_true_iff in Eb. destruct Eb as [Eb1 Eb2]. rewrite Eb1, Eb2.
          pose proof (stride_pos f Hf d Eb1) as Hst.
          assert (Hfr : in_slice (dslice f d) (r_front r)) by (apply Hc; unfold in_range; lia).
          assert (Hbk : in_slice (dslice f d) (r_back r)) by (apply Hc; unfold in_range, r_back; lia).
          rewrite (proj2 (slice_contains_iff _ _ Hst) Hfr).
          replace (Nat.eqb (r_ext r) 1 || Nat.eqb (s_stride (dslice f d)) 1)%bool with true.
          2:{ destruct (Nat.eqb_spec (r_ext r) 1); auto. simpl. symmetry. apply Nat.eqb_eq.
              assert (H1 : in_slice (dslice f d) (r_front r + 1)) by (apply Hc; unfold in_range; lia).
              destruct Hfr as (k & _ & Ek), H1 as (k' & _ & Ek').
              assert (1 = (Z.of_nat k' - Z.of_nat k) * Z.of_nat (s_stride (dslice f d)))%Z by lia.
              assert (Hd1 : (Z.of_nat (s_stride (dslice f d)) | 1)%Z) by (exists (Z.of_nat k' - Z.of_nat k)%Z; lia).
              apply Z.divide_1_r_nonneg in Hd1; lia. }
          cbn [andb check bind].
          destruct (get_index_ok f d _ Hst Hfr) as (x & -> & Hx & Ex). cbn [bind].
          destruct (get_index_ok f d _ Hst Hbk) as (y & -> & Hy & Ey). cbn [bind].
          exists x, (y + 1)%Z. split; auto. unfold inb, r_back in *. nia.
        + destruct Hc as [[Hc _]|[_ Hc]]; [apply Hask in Hc; congruence|].
          replace (if has_deriv f d then if holds_deriv f A (Der d) then s_ext (dslice f d) else r_ext (phys f d)
                   else r_ext (phys f d)) with (r_ext (phys f d))
            by (destruct (has_deriv f d), (holds_deriv f A (Der d)); simpl in Eb; congruence).
          assert (H1 : in_range (phys f d) (r_front r)) by (apply Hc; unfold in_range; lia).
          assert (H2 : in_range (phys f d) (r_back r)) by (apply Hc; unfold in_range, r_back; lia).
          eexists _, _. split; [reflexivity|]. unfold in_range, r_back in *. lia.
      - rewrite Hbit by auto. unfold fr_of. destruct (rg (Der d)) as [r|] eqn:Er.
        + destruct (Hs (Der d) r Ht (or_introl Er)) as [Hne Hc].
          destruct (Z.eqb_spec (r_front r) 0) as [E|E]; cbn [negb check bind].
          * destruct Hc as [[_ Hc]|Hc]; [|lia]. unfold r_back. rewrite Hc.
            replace (r_front r + Z.of_nat 1 - 1 =? r_front r)%Z with true by lia. cbn [check bind].
            eexists _, _. split; [reflexivity|]. lia.
          * destruct Hc as [[Hc _]|Hc]; [lia|]. eexists _, _. split; [reflexivity|]. unfold r_back. lia.
        + simpl. eexists _, _. split; [reflexivity|]. lia. }
    destruct (map_res_total (get_slicer_for_range f full A) (dims f)) as [ss Es].
    { intros t Ht. rewrite (slicer_ppair f (fr_of rg)) by auto.
      destruct (Hpp t Ht) as (a & b & -> & _). simpl. eauto. }
    rewrite Es. cbn [bind]. apply (map_res_inv _ FullExtent) in Es. destruct Es as [_ ->].
    set (g := fun t => match ppair f A (fr_of rg) t with Ok q => q | _ => (0, 0)%Z end).
    rewrite map_ext_in with (g := fun t => Pair (fst (g t)) (snd (g t))).
    2:{ intros t Ht. rewrite (slicer_ppair f (fr_of rg)) by auto. unfold g.
        destruct (Hpp t Ht) as (a & b & -> & _). reflexivity. }
    assert (Hb : Forall2 (fun t (es : nat * nat) => (0 <= fst (g t) /\ fst (g t) <= snd (g t) /\ snd (g t) <= Z.of_nat (fst es))%Z)
              (dims f) (layout_right (sizes f A))).
    { apply (proj1 (Forall2_map_iff (fun x (es : nat * nat) => (0 <= fst (g x) /\ fst (g x) <= snd (g x) /\ snd (g x) <= Z.of_nat (fst es))%Z) (fun x => x) _ _)).
      rewrite map_id. unfold sizes.
      assert (G : forall l, incl l (dims f) -> Forall2 (fun t (es : nat * nat) => (0 <= fst (g t) /\ fst (g t) <= snd (g t) /\ snd (g t) <= Z.of_nat (fst es))%Z)
              l (layout_right (map (get_mdspan_size f A) l))).
      { induction l as [|t l IH]; intros Hl; simpl; constructor.
        - apply incl_cons_inv in Hl. destruct Hl as [Ht _]. destruct (Hpp t Ht) as (a & b & Ep & Hab).
          unfold g. rewrite Ep. exact Hab.
        - apply IH. apply incl_cons_inv in Hl; tauto. }
      apply G, incl_refl. }
    destruct (sub_pairs_ok _ _ _ _ 0%Z Hb) as [[o1 ds1] E1].
    unfold submdspan, make_internal_mdspan. cbn [v_off v_dims v_block]. fold (sizes f A).
    rewrite E1. cbn [bind]. unfold field_slice. cbn [f_view f_dom]. unfold submdspan. cbn [v_off v_dims v_block].
    rewrite map_map. cbn [fst snd].
    rewrite map_ext with (g := fun t => if implicit rg t then At (0 - r_front (fr_of rg t))%Z else FullExtent).
    2:{ intros t. unfold implicit, fr_of. destruct (rg t); auto. destruct t; auto. }
    apply sub_pairs_inv in E1. destruct E1 as [_ E1]. cbn [snd] in E1.
    destruct (sub_fix_ok (implicit rg) (fun t => 0 - r_front (fr_of rg t))%Z (fun t => r_ext (fr_of rg t)) (dims f) ds1 o1)
      as [[o2 ds2] E2].
    { assert (G : forall l d1, incl l (dims f) ->
         Forall2 (fun t (es : nat * nat) => fst es = Z.to_nat (snd (g t) - fst (g t))) l d1 ->
         Forall2 (fun t (es : nat * nat) => r_ext (fr_of rg t) = fst es) l d1).
      { induction l as [|t l IH]; intros d1 Hl Hd; inversion Hd; subst; constructor.
        - rewrite H1. symmetry. apply (ppair_ext A (fr_of rg)); [apply Hl; simpl; auto|].
          destruct (Hpp t) as (a & b & Ep & _); [apply Hl; simpl; auto|]. unfold g. rewrite Ep. reflexivity.
        - apply IH; auto. apply incl_cons_inv in Hl; tauto. }
      apply G; auto using incl_refl. }
    { intros t Ht Hi. unfold implicit in Hi. unfold fr_of. destruct (rg t); [discriminate|].
      destruct t; [discriminate|]. unfold inb. simpl. lia. }
    rewrite E2. cbn [bind]. eauto.
  Qed.

  (** ** Fixing only some of the indices *)
  Lemma idx_field_cells elem fld idx :
    get_internal_field_idx f fields elem = Ok fld ->
    (forall t, In t (dims f) -> match elem t, t with
       | Some i, _ => idx t = i
       | None, Der _ => idx t = 0%Z
       | None, Phys d => ~ (In (Der d) (dims f) /\ idx (Der d) <> 0%Z)
       end) ->
    well_sized fld /\
    ((forall d, In (Phys d) (dims f) -> elem (Phys d) = None -> in_range (phys f d) (idx (Phys d))) ->
     exists c, field_call fld idx = Ok c /\ call f fields (fun t => Some (idx t)) = Ok c).
  Proof.
    intros H Hidx. unfold get_internal_field_idx in H. cbn zeta in H.
    assert (EA : get_array_index f (fun t => match elem t with Some i => i | None => 0%Z end) = get_array_index f idx).
    { apply array_index_ext; auto. intros t Ht Hd. specialize (Hidx t Ht).
      destruct t as [d|d]; [discriminate|]. destruct (elem (Der d)); rewrite Hidx; tauto. }
    rewrite EA in H. set (A := get_array_index f idx) in *.
    rewrite (rd_fields f p fields HF) in H by (apply array_index_lt; auto). cbn [bind] in H.
    set (sidx := fun t => match elem t with Some i => Some i | None => if is_deriv_dim t then Some 0%Z else None end) in H.
    destruct (map_res (get_slicer_for_idx f sidx A) (dims f)) as [ss| | |] eqn:Es; try discriminate.
    cbn [bind] in H. apply (map_res_inv _ FullExtent) in Es. destruct Es as [Es1 Es2].
    set (q := fun t => match sidx t with Some _ => true | None => false end).
    assert (Hq : forall t, In t (dims f) -> q t = true -> sidx t = Some (idx t)).
    { intros t Ht. unfold q, sidx. specialize (Hidx t Ht). destruct (elem t); [congruence|].
      destruct t; simpl; [discriminate|]. intros; congruence. }
    assert (Hqf : forall t, q t = false -> sidx t = None /\ elem t = None /\ exists d, t = Phys d).
    { intros t. unfold q, sidx. destruct (elem t); [discriminate|]. destruct t; simpl; [|discriminate]. eauto. }
    set (g := fun t => match pos f A idx t with Ok k => k | _ => 0%Z end).
    assert (Hg : forall t, In t (dims f) -> q t = true -> pos f A idx t = Ok (g t)).
    { intros t Ht Et. destruct (Es1 t Ht) as [y Hy]. rewrite (slicer_pos f idx) in Hy by auto.
      unfold g. destruct (pos f A idx t); try discriminate. reflexivity. }
    assert (Ess : ss = map (fun t => if q t then At (g t) else FullExtent) (dims f)).
    { rewrite Es2. apply map_ext_in. intros t Ht. destruct (q t) eqn:Et.
      - rewrite (slicer_pos f idx) by auto. rewrite (Hg t Ht Et). reflexivity.
      - unfold get_slicer_for_idx. rewrite (proj1 (Hqf t Et)). reflexivity. }
    unfold submdspan, make_internal_mdspan in H. cbn [v_off v_dims v_block] in H. fold (sizes f A) in H.
    rewrite Ess in H.
    destruct (submdspan_dims 0 _ _) as [[o1 ds1]| | |] eqn:E1; try discriminate. cbn [bind] in H.
    set (rest := filter (fun t => negb (q t)) (dims f)).
    set (rng := fun t => match t with Phys d => phys f d | Der _ => Range 0 1 end).
    match type of H with context [flat_map ?F (dims f)] =>
      assert (Edom : flat_map F (dims f) = map (fun t => (t, rng t)) rest) end.
    { unfold rest. clear. induction (dims f) as [|t l IH]; [reflexivity|].
      cbn [flat_map filter]. rewrite IH. unfold q, sidx. destruct (elem t); [reflexivity|].
      destruct t; reflexivity. }
    rewrite Edom in H.
    assert (Efl : forall x y, Ok x = @Ok field y -> x = y) by (intros; congruence). apply Efl in H. rewrite <- H.
    clear H Edom Efl.
    assert (Hsz : Forall2 (fun t (es : nat * nat) => r_ext (rng t) = fst es) rest ds1).
    { assert (G0 : Forall2 (fun t (es : nat * nat) => get_mdspan_size f A t = fst es) rest ds1).
      { eapply (sub_fix_inv q g); [|exact E1]. unfold sizes. clear.
        induction (dims f) as [|t l IH]; simpl; constructor; auto. }
      assert (Hr : forall t, In t rest -> r_ext (rng t) = get_mdspan_size f A t).
      { intros t Ht. apply filter_In in Ht. destruct Ht as [Ht Eq].
        apply negb_true_iff in Eq. destruct (Hqf t Eq) as (_ & En & d & ->). simpl.
        specialize (Hidx _ Ht). rewrite En in Hidx.
        destruct (has_deriv f d) eqn:Ed; auto. unfold A. rewrite (holds_idx f Hf) by auto.
        apply has_deriv_iff in Ed; auto.
        destruct (Z.eqb_spec (idx (Der d)) 0); simpl; auto. tauto. }
      clear - G0 Hr. induction G0; constructor.
      - rewrite Hr by (simpl; auto). auto.
      - apply IHG0. intros; apply Hr; simpl; auto. }
    split.
    - unfold well_sized. cbn [f_dom f_view v_dims]. rewrite Forall2_map_iff. exact Hsz.
    - intros Hrange. unfold field_call, submdspan. cbn [f_dom f_view v_dims v_off v_block].
      rewrite map_map. cbn [fst snd].
      assert (Hin : Forall2 inb (map (fun t => (idx t - r_front (rng t))%Z) rest) (map fst ds1)).
      { rewrite Forall2_map_iff.
        assert (Hr : forall t, In t rest -> in_range (rng t) (idx t)).
        { intros t Ht. apply filter_In in Ht. destruct Ht as [Ht Eq].
          apply negb_true_iff in Eq. destruct (Hqf t Eq) as (_ & En & d & ->). simpl. auto. }
        clear - Hsz Hr. induction Hsz; simpl; constructor.
        - specialize (Hr x (or_introl eq_refl)). unfold in_range, inb in *. lia.
        - apply IHHsz. intros; apply Hr; simpl; auto. }
      destruct (sub_at_ok ds1 _ o1 Hin) as [o3 E3]. rewrite map_map in E3. rewrite E3. cbn [bind].
      exists (p + A, o3). split; [reflexivity|].
      pose proof (sub_comp _ _ _ _ _ _ _ E1 E3) as E12. unfold rest in E12. rewrite comp_rest_full in E12.
      set (ks := map (fun t => if q t then g t else (idx t - r_front (rng t))%Z) (dims f)) in *.
      assert (Hks : posns f A idx ks).
      { unfold posns, ks. assert (G : forall l, incl l (dims f) ->
          Forall2 (fun t k => pos f A idx t = Ok k) l
            (map (fun t => if q t then g t else (idx t - r_front (rng t))%Z) l)).
        { induction l as [|t l IH]; intros Hl; simpl; constructor.
          - apply incl_cons_inv in Hl. destruct Hl as [Ht _]. destruct (q t) eqn:Et; [now apply Hg|].
            destruct (Hqf t Et) as (_ & En & d & ->). specialize (Hidx _ Ht). rewrite En in Hidx.
            unfold pos, rng. destruct (has_deriv f d) eqn:Ed; cbn [andb]; auto.
            unfold A. rewrite (holds_idx f Hf) by auto. apply has_deriv_iff in Ed; auto.
            destruct (Z.eqb_spec (idx (Der d)) 0); simpl; auto. tauto.
          - apply IH. apply incl_cons_inv in Hl; tauto. }
        apply G, incl_refl. }
      destruct (call_eq f Hf p fields HF (fun t => Some (idx t)) idx) as [(ks' & P' & E')|(_ & t & Ht & E')].
      + intros t _. auto.
      + rewrite E'. fold A. fold A in P'. rewrite (posns_unique f A idx _ _ P' Hks). rewrite E12. reflexivity.
      + exfalso. fold A in E'. destruct (Forall2_in_l _ _ _ _ Hks Ht) as [k Hk]. congruence.
  Qed.

  (** ** DerivField shares the memory of the DerivFieldMem *)
  Lemma map_res_id fs n : length fs = n ->
    map_res (fun a => rd fs (Z.of_nat a)) (seq 0 n) = @Ok (list view) fs.
  Proof.
    intros Hl. assert (G : forall m s pre suf, fs = pre ++ suf -> length pre = s -> length suf = m ->
       map_res (fun a => rd fs (Z.of_nat a)) (seq s m) = Ok suf).
    { induction m as [|m IH]; intros s pre suf E Es Em; destruct suf as [|x suf]; simpl in *; try lia; auto.
      assert (Er : rd fs (Z.of_nat s) = Ok x).
      { unfold rd. replace (Z.of_nat s <? 0)%Z with false by lia. rewrite Nat2Z.id, E.
        rewrite nth_error_app2 by lia. now rewrite Es, Nat.sub_diag. }
      rewrite Er. cbn [bind]. rewrite (IH (S s) (pre ++ [x]) suf); auto.
      - now rewrite <- app_assoc.
      - rewrite app_length. simpl. lia. }
    apply (G n 0 [] fs); auto.
  Qed.

  Lemma initialise_fields_same chunks : length chunks = n_fields f -> initialise_fields f chunks = Ok chunks.
  Proof.
    intros Hl. unfold initialise_fields. rewrite <- (map_res_id chunks _ Hl).
    assert (G : forall l, (forall a, In a l -> a < n_fields f) ->
      map_res (fun a => rd chunks (Z.of_nat (get_array_index f (chunk_subidx f a)))) l =
      map_res (fun a => rd chunks (Z.of_nat a)) l).
    { induction l as [|a l IH]; intros H; simpl; auto.
      rewrite (array_index_of_bits f (chunk_subidx f a) a Hf).
      - destruct (rd chunks (Z.of_nat a)); simpl; auto. rewrite IH; auto. intros; apply H; simpl; auto.
      - apply H; simpl; auto.
      - intros t _ _. unfold chunk_subidx. destruct (holds_deriv f a t); reflexivity. }
    apply G. intros a Ha. apply in_seq in Ha. lia.
  Qed.
End Slices.
