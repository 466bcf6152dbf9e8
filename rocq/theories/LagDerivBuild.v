(** Tensor-product theorems and the ND builder (C67). *)
From Coq Require Import ZifyBool.
From Verif Require Import LagDerivSpec LagrangeProofs LagrangeStencilProofs LagrangeEvalProofs LagDerivPoly LagDerivProofs LagDerivMain RestrictProofs QuadProofs.
From Coq Require Import Lra Lia.
Open Scope R_scope.

Lemma admissible_init : forall dims x, admissible dims x -> forall d bo, nth_error dims d = Some bo -> initialised (fst bo).
Proof.
  induction dims as [|(b, o) dims IH]; intros x A d bo H; [destruct d; discriminate|].
  destruct x as [|y x]; [destruct dims; cbn in A; contradiction|].
  destruct dims as [|d' dims].
  - destruct x; [|cbn in A; tauto]. destruct A as [A _]. destruct d as [|[|d]]; cbn in H; [|discriminate|discriminate]. now injection H as <-.
  - change (initialised b /\ in_domain b y /\ (order_of o <= b_degree b)%nat /\ (order_of o <= 20)%nat /\ o <> Some 0%nat /\ admissible (d' :: dims) x) in A.
    destruct A as (HI & _ & _ & _ & _ & A). destruct d as [|d]; [now injection H as <-|]. now apply (IH x A d).
Qed.
Lemma nd_poly sc dims x m (a : nat -> R) (p : nat -> nat -> list R) (g : nat -> nat -> R -> R) cf : admissible dims x ->
  (forall bo, In bo dims -> b_periodic (fst bo) = false) ->
  (forall q d bo, (q < m)%nat -> nth_error dims d = Some bo ->
     (length (p q d) <= S (b_degree (fst bo)))%nat /\ nth_derivative (order_of (snd bo)) (peval (p q d)) (g q d)) ->
  (forall l, coef_index dims l -> cf (map Z.of_nat l) = Ok (Rsum m (fun q => a q * product_at dims (fun d => peval (p q d)) l))) ->
  exists x2, evaluated_near dims x x2 /\
    nd_eval sc dims x cf = Ok (Rsum m (fun q => a q * prod_upto (length dims) (fun d => g q d (nth d x2 0)))).
Proof.
  intros A NP HP HC. destruct (nd_spec sc dims x A) as (vs & x2 & V & E). exists x2. split; [now apply (near_ok dims x vs)|].
  rewrite (E cf _ HC). f_equal. rewrite (tensor_lin dims vs x x2) by auto. apply Rsum_ext. intros q Hq. f_equal.
  apply (tensor_prod dims vs x x2 (p q) (g q)); auto. intros d bo Hd.
  split; [now apply (admissible_init dims x A d)|]. now apply HP.
Qed.
(** values at the knots *)
Lemma tensor_knot : forall dims ms vs x2 c, (forall bo, In bo dims -> initialised (fst bo) /\ separated (fst bo) /\ b_periodic (fst bo) = false /\ snd bo = None) ->
  coef_index dims ms -> are_dim_values dims (map (fun bi => kn (fst (fst bi)) (snd bi)) (combine dims ms)) vs x2 ->
  tensor_sum dims vs c = c ms.
Proof.
  induction dims as [|(b, o) dims IH]; intros [|mi ms] [|(s, v) vs] x2 c H HM A; cbn [coef_index] in HM; try contradiction.
  - reflexivity.
  - cbn [combine map are_dim_values fst snd] in A. destruct x2 as [|y2 x2]; [cbn in A; contradiction|].
    destruct A as [(Hs & x1 & K1 & K2 & K3 & _ & K5) A]. destruct HM as [HM1 HM].
    destruct (H (b, o) (or_introl eq_refl)) as (HI & HS & NP & EO). cbn [fst snd] in *. subst o.
    destruct K2 as [->|[C _]]; [|congruence]. pose proof (initialised_good b HI) as G.
    cbn [tensor_sum].
    rewrite (Rsum_ext _ _ (fun i => nth (s + i) (map (fun j => c (j :: ms)) (seq 0 (length (b_knots b)))) 0 * lagrange_poly (b_degree b) (stn b s) i y2)).
    + rewrite (at_knot b G _ s mi y2) by auto. now rewrite map_seq_nth by auto.
    + intros i Hi. rewrite map_seq_nth by lia. rewrite (IH ms vs x2) by (auto; intros; apply H; now right).
      destruct (K5 i ltac:(lia)) as (g & Dg & ->). destruct Dg as (F & F0 & _ & Fn). cbn [order_of] in Fn.
      rewrite <- Fn, F0. unfold stn. ring.
Qed.
Lemma nd_knots sc dims ms cf c : (forall bo, In bo dims -> initialised (fst bo) /\ separated (fst bo) /\ b_periodic (fst bo) = false /\ snd bo = None) ->
  dims <> [] -> coef_index dims ms -> (forall l, coef_index dims l -> cf (map Z.of_nat l) = Ok (c l)) ->
  nd_eval sc dims (map (fun bi => kn (fst (fst bi)) (snd bi)) (combine dims ms)) cf = Ok (c ms).
Proof.
  intros H NE HM HC.
  assert (A : admissible dims (map (fun bi => kn (fst (fst bi)) (snd bi)) (combine dims ms))).
  { clear HC. revert ms HM NE H. induction dims as [|(b, o) dims IH]; intros [|mi ms] HM NE H; try contradiction.
    destruct HM as [HM1 HM]. destruct (H (b, o) (or_introl eq_refl)) as (HI & HS & NP & EO). cbn [fst snd] in *. subst o.
    pose proof (initialised_good b HI) as G.
    assert (DOM : in_domain b (kn b mi)).
    { pose proof (g_len b G) as L. rewrite NP in L. split; apply (kn_le b G); lia. }
    cbn [combine map fst snd].
    destruct dims as [|d dims].
    - destruct ms; [|contradiction]. cbn [combine map]. split; [auto|]. split; [auto|]. cbn. lia.
    - destruct ms as [|mj ms]; [destruct d; contradiction|].
      split; [exact HI|]. split; [exact DOM|]. split; [cbn; lia|]. split; [cbn; lia|]. split; [discriminate|].
      apply (IH (mj :: ms)); auto; [discriminate|]. intros bo Hb. apply H. now right. }
  destruct (nd_spec sc dims _ A) as (vs & x2 & V & E). rewrite (E cf c HC). f_equal. now apply (tensor_knot dims ms vs x2).
Qed.
(** outside the domain *)
Lemma head_outside sc b o d dims y x cf : initialised b -> b_uniform b = false -> ~ in_domain b y ->
  nd_eval sc ((b, o) :: d :: dims) (y :: x) cf = AssertFail.
Proof.
  intros HI EU ND. pose proof (initialised_good b HI) as G.
  change (nd_eval sc ((b, o) :: d :: dims) (y :: x) cf) with
        (let* st := find_stencil b y in let '(y1, s) := st in let* vals := basis_row sc true b o y1 s in
         head_sum (S (b_degree b)) vals (fun i => nd_eval sc (d :: dims) x (fun l => cf ((s + Z.of_nat i)%Z :: l)))).
  unfold find_stencil, get_closest. rewrite EU, rmin_ok, rmax_ok by auto. cbn [bind].
  destruct (Rle_dec (kn b 0) y); [|reflexivity]. destruct (Rle_dec y (kn b (b_bp b - 1))); [|reflexivity].
  exfalso. apply ND. split; auto.
Qed.
Lemma tail_outside sc b o b2 o2 y y2 cf : initialised b -> in_domain b y -> (order_of o <= b_degree b)%nat -> (order_of o <= 20)%nat ->
  o <> Some 0%nat -> initialised b2 -> b_uniform b2 = false -> ~ in_domain b2 y2 ->
  nd_eval sc [(b, o); (b2, o2)] [y; y2] cf = AssertFail.
Proof.
  intros HI HD Ho H20 N0 HI2 EU ND. pose proof (initialised_good b HI) as G. pose proof (initialised_good b2 HI2) as G2.
  cbn [nd_eval]. destruct (find_stencil_spec b G y HD) as (y1 & s & ES & H1 & H2 & H3 & _ & _).
  destruct (row_spec b G sc true o y1 s H1 H2 Ho H20 ltac:(auto)) as (x2 & v & _ & _ & K3 & _).
  rewrite ES. cbn [bind]. rewrite K3. cbn [bind].
  assert (T : forall f, eval1 sc b2 o2 y2 f = AssertFail).
  { intros f. unfold eval1, find_stencil, get_closest. rewrite EU, rmin_ok, rmax_ok by auto. cbn [bind].
    destruct (Rle_dec (kn b2 0) y2); [|reflexivity]. destruct (Rle_dec y2 (kn b2 (b_bp b2 - 1))); [|reflexivity].
    exfalso. apply ND. split; auto. }
  assert (HS : forall n, (n <= b_degree b)%nat ->
     head_sum (S n) (map v (seq 0 (S (b_degree b)))) (fun i => eval1 sc b2 o2 y2 (fun i0 => cf [(Z.of_nat s + Z.of_nat i)%Z; i0])) = AssertFail).
  { induction n as [|n IH]; intros Hn.
    - cbn [head_sum bind]. unfold rd. cbn. now rewrite T.
    - remember (S n) as k. cbn [head_sum]. subst k. rewrite IH by lia. reflexivity. }
  now apply HS.
Qed.

(** ** Builder *)
Lemma in_box_iff r l : in_box r l = true <-> length l = length r /\
  forall j, (j < length r)%nat -> (fst (nth j r (0, 0)) <= nth j l 0 < fst (nth j r (0, 0)) + snd (nth j r (0, 0)))%nat.
Proof.
  unfold in_box. rewrite andb_true_iff, Nat.eqb_eq, forallb_forall. split.
  - intros [L H]. split; [exact L|]. intros j Hj. specialize (H j ltac:(apply in_seq; lia)). lia.
  - intros [L H]. split; [exact L|]. intros j Hj. apply in_seq in Hj. specialize (H j ltac:(lia)). lia.
Qed.
Lemma set_dim_length {A} (d0 : A) r k d : length (set_dim d0 r k d) = length r.
Proof. unfold set_dim. now rewrite map_length, seq_length. Qed.
Lemma set_dim_nth {A} (d0 : A) r k d j : (j < length r)%nat -> nth j (set_dim d0 r k d) d0 = if (j =? k)%nat then d else nth j r d0.
Proof.
  intros H. unfold set_dim. rewrite (nth_indep _ d0 ((fun j => if (j =? k)%nat then d else nth j r d0) 0%nat)) by (now rewrite map_length, seq_length).
  rewrite (map_nth (fun j => if (j =? k)%nat then d else nth j r d0)), seq_nth by auto. reflexivity.
Qed.
Notation filled0 dims := (map (fun d => (0, id_filled d)%nat) dims).
Lemma filled_nth dims j : (j < length dims)%nat -> nth j (filled0 dims) (0, 0)%nat = (0, id_filled (nth j dims id_none))%nat.
Proof.
  intros H. rewrite (nth_indep _ (0, 0)%nat (0, id_filled id_none)%nat) by (now rewrite map_length).
  now rewrite (map_nth (fun d => (0, id_filled d)%nat)).
Qed.
Lemma list_ext_nth (l l' : list nat) : length l = length l' -> (forall j, (j < length l)%nat -> nth j l 0 = nth j l' 0)%nat -> l = l'.
Proof. intros L H. apply (nth_ext l l' 0%nat 0%nat); auto. Qed.

Lemma builder_one dims k vals garbage : (forall d, In d dims -> id_sizes d) ->
  (forall j, (j < length dims)%nat -> j <> k -> id_per (nth j dims id_none) = false) ->
  exists F, nd_identity_builder dims vals garbage = Ok F /\ forall l, id_index dims l -> F l = vals (id_point dims l).
Proof.
  intros HS HK. unfold nd_identity_builder.
  set (F0 := fun l => if in_box (filled0 dims) l then vals l else garbage l).
  assert (SZ : forall j, (j < length dims)%nat -> id_sizes (nth j dims id_none)) by (intros; apply HS, nth_In; auto).
  set (d := nth k dims id_none).
  set (fin := if ((k <? length dims)%nat && id_per d)%bool then
      (fun l => if in_box (set_dim (0, 0)%nat (filled0 dims) k (id_bp d - 1, id_full d - (id_bp d - 1))%nat) l
                then F0 (set_dim 0%nat l k (0 + (nth k l 0 - (id_bp d - 1))))%nat else F0 l,
       set_dim (0, 0)%nat (filled0 dims) k (id_bp d - 1, id_full d - (id_bp d - 1))%nat) else (F0, filled0 dims)).
  destruct (for_res_inv (fun n st => st = if (k <? n)%nat then fin else (F0, filled0 dims)) (length dims) (fun k st => id_copy dims k st) (F0, filled0 dims))
    as (st & E & P).
  - reflexivity.
  - intros i st Hi ->. unfold id_copy. change {| id_per := false; id_bp := 0; id_full := 0 |} with id_none.
    destruct (Nat.eq_dec i k) as [->|NE].
    + rewrite Nat.ltb_irrefl. destruct (Nat.ltb_spec k (S k)); [|lia]. fold d.
      destruct (id_per d) eqn:EP.
      * assert (Hd : id_sizes d) by (apply SZ; auto). unfold id_sizes in Hd. rewrite EP in Hd.
        rewrite filled_nth by auto. fold d. unfold id_filled. rewrite EP.
        destruct (Nat.leb_spec (id_full d - (id_bp d - 1)) (id_bp d - 1)); [|lia].
        eexists. split; [reflexivity|]. unfold fin. rewrite ?EP. destruct (Nat.ltb_spec k (length dims)); [|lia]. reflexivity.
      * eexists. split; [reflexivity|]. unfold fin. rewrite ?EP, ?andb_false_r. reflexivity.
    + rewrite (HK i Hi NE). destruct (Nat.ltb_spec k i), (Nat.ltb_spec k (S i)); try lia.
      * destruct fin. eexists. split; reflexivity.
      * eexists. split; reflexivity.
  - rewrite E. cbn [bind]. eexists. split; [reflexivity|]. intros l (LL & HL).
    assert (F00 : forall l', length l' = length dims -> (forall j, (j < length dims)%nat -> (nth j l' 0 < id_filled (nth j dims id_none))%nat) -> F0 l' = vals l').
    { intros l' L' H'. unfold F0. destruct (in_box (filled0 dims) l') eqn:EB; [reflexivity|]. exfalso.
      assert (C : in_box (filled0 dims) l' = true); [|congruence]. apply in_box_iff. rewrite map_length. split; [auto|].
      intros j Hj. rewrite filled_nth by auto. cbn [fst snd]. specialize (H' j Hj). lia. }
    assert (LP : length (id_point dims l) = length dims) by (unfold id_point; now rewrite map_length, seq_length).
    assert (NP : forall j, (j < length dims)%nat -> nth j (id_point dims l) 0%nat =
       (if id_per (nth j dims id_none) then nth j l 0 mod (id_bp (nth j dims id_none) - 1) else nth j l 0)%nat).
    { intros j Hj. unfold id_point. set (f := fun k : nat => _). rewrite (nth_indep _ 0%nat (f 0%nat)) by (now rewrite map_length, seq_length).
      rewrite (map_nth f), seq_nth by auto. reflexivity. }
    assert (OTH : forall j, (j < length dims)%nat -> j <> k -> (nth j l 0 < id_filled (nth j dims id_none))%nat).
    { intros j Hj NE. specialize (SZ j Hj). unfold id_sizes in SZ. rewrite (HK j Hj NE) in SZ. unfold id_filled. rewrite (HK j Hj NE).
      specialize (HL j Hj). lia. }
    rewrite P. destruct (Nat.ltb_spec k (length dims)) as [Hk|Hk].
    + unfold fin. destruct (Nat.ltb_spec k (length dims)); [|lia]. cbn [andb].
      pose proof (SZ k Hk) as Sk. fold d in Sk. unfold id_sizes in Sk. pose proof (HL k Hk) as Lk. fold d in Lk.
      destruct (id_per d) eqn:EP; cbn [fst].
      * destruct (in_box _ l) eqn:EB.
        -- apply in_box_iff in EB. rewrite set_dim_length, map_length in EB. destruct EB as [_ EB].
           specialize (EB k Hk). rewrite set_dim_nth in EB by (now rewrite map_length). rewrite Nat.eqb_refl in EB. cbn [fst snd] in EB.
           rewrite F00.
           ++ f_equal. apply list_ext_nth; [rewrite set_dim_length; lia|]. rewrite set_dim_length. intros j Hj.
              rewrite set_dim_nth by auto. rewrite NP by lia. destruct (Nat.eqb_spec j k) as [->|NE].
              ** fold d. rewrite EP. replace (nth k l 0)%nat with ((nth k l 0 - (id_bp d - 1)) + 1 * (id_bp d - 1))%nat at 2 by lia.
                 rewrite Nat.mod_add by lia. rewrite Nat.mod_small by lia. lia.
              ** now rewrite HK by lia.
           ++ now rewrite set_dim_length.
           ++ intros j Hj. rewrite set_dim_nth by lia. destruct (Nat.eqb_spec j k) as [->|NE]; [|now apply OTH].
              unfold id_filled. fold d. rewrite EP. lia.
        -- assert (Hlt : (nth k l 0 < id_bp d - 1)%nat).
           { destruct (Nat.ltb_spec (nth k l 0)%nat (id_bp d - 1)); auto. exfalso.
             assert (C : in_box (set_dim (0, 0)%nat (filled0 dims) k (id_bp d - 1, id_full d - (id_bp d - 1))%nat) l = true); [|congruence].
             apply in_box_iff. rewrite set_dim_length, map_length. split; [auto|]. intros j Hj.
             rewrite set_dim_nth by (now rewrite map_length). destruct (Nat.eqb_spec j k) as [->|NE]; cbn [fst snd]; [lia|].
             rewrite filled_nth by auto. cbn [fst snd]. specialize (OTH j Hj NE). lia. }
           rewrite F00; auto.
           ++ f_equal. apply list_ext_nth; [lia|]. intros j Hj. rewrite NP by lia.
              destruct (Nat.eq_dec j k) as [->|NE]; [|now rewrite HK by lia]. fold d. rewrite EP. now rewrite Nat.mod_small.
           ++ intros j Hj. destruct (Nat.eq_dec j k) as [->|NE]; [|now apply OTH]. unfold id_filled. fold d. rewrite EP. lia.
      * rewrite F00; auto.
        -- f_equal. apply list_ext_nth; [lia|]. intros j Hj. rewrite NP by lia.
           destruct (Nat.eq_dec j k) as [->|NE]; [fold d; now rewrite EP|now rewrite HK by lia].
        -- intros j Hj. destruct (Nat.eq_dec j k) as [->|NE]; [|now apply OTH]. unfold id_filled. fold d. rewrite EP. lia.
    + cbn [fst]. rewrite F00; auto.
      * f_equal. apply list_ext_nth; [lia|]. intros j Hj. rewrite NP by lia. now rewrite HK by lia.
      * intros j Hj. apply OTH; lia.
Qed.
Lemma builder_two dims k1 k2 vals garbage F l : (k1 < length dims)%nat -> (k2 < length dims)%nat -> k1 <> k2 ->
  id_per (nth k1 dims id_none) = true -> id_per (nth k2 dims id_none) = true ->
  (forall j, (j < k1)%nat -> id_per (nth j dims id_none) = false) ->
  nd_identity_builder dims vals garbage = Ok F ->
  (nth k1 l 0 < id_bp (nth k1 dims id_none) - 1)%nat -> (id_bp (nth k2 dims id_none) - 1 <= nth k2 l 0)%nat ->
  F l = garbage l.
Proof.
  intros H1 H2 NE P1 P2 PB E L1 L2. unfold nd_identity_builder in E.
  set (F0 := fun l => if in_box (filled0 dims) l then vals l else garbage l) in *.
  assert (G0 : F0 l = garbage l).
  { unfold F0. destruct (in_box (filled0 dims) l) eqn:EB; [|reflexivity]. exfalso. apply in_box_iff in EB. destruct EB as [_ EB].
    rewrite map_length in EB. specialize (EB k2 H2). rewrite filled_nth in EB by auto. cbn [fst snd] in EB. unfold id_filled in EB. rewrite P2 in EB. lia. }
  assert (INV : forall n, (n <= length dims)%nat -> match for_res n (fun k st => id_copy dims k st) (F0, filled0 dims) with
     | Ok (F, r) => F l = garbage l /\ length r = length dims /\
         ((k1 < n)%nat -> fst (nth k1 r (0, 0)%nat) = (id_bp (nth k1 dims id_none) - 1)%nat)
     | _ => True end).
  { induction n as [|n IH]; intros Hn; cbn [for_res].
    - split; [exact G0|]. split; [now rewrite map_length|]. intros; lia.
    - specialize (IH ltac:(lia)). destruct (for_res n _ _) as [(F1, r)| | |]; cbn [bind]; auto.
      destruct IH as (A & B & C). unfold id_copy. change {| id_per := false; id_bp := 0; id_full := 0 |} with id_none.
      destruct (id_per (nth n dims id_none)) eqn:EP.
      + destruct (nth n r (0, 0)%nat) as [f0 n0] eqn:ER. destruct (Nat.leb _ n0); [|exact I].
        assert (FR : fst (nth k1 (set_dim (0, 0)%nat r n (id_bp (nth n dims id_none) - 1, id_full (nth n dims id_none) - (id_bp (nth n dims id_none) - 1))%nat) (0, 0)%nat)
           = (id_bp (nth k1 dims id_none) - 1)%nat \/ (n < k1)%nat).
        { destruct (Nat.lt_ge_cases n k1) as [|HG]; [now right|]. left. rewrite set_dim_nth by lia.
          destruct (Nat.eqb_spec k1 n) as [->|N2]; [reflexivity|]. apply C. lia. }
        destruct FR as [FR|FR]; [|rewrite PB in EP by auto; discriminate].
        split; [|split; [now rewrite set_dim_length|intros _; exact FR]].
        destruct (in_box _ l) eqn:EB; [|exact A]. exfalso. apply in_box_iff in EB. rewrite set_dim_length in EB. destruct EB as [_ EB].
        specialize (EB k1 ltac:(lia)). rewrite FR in EB. lia.
      + split; [exact A|]. split; [exact B|]. intros Hk. apply C. assert (k1 <> n) by (intros ->; congruence). lia. }
  specialize (INV (length dims) ltac:(lia)). destruct (for_res _ _ _) as [(F1, r)| | |]; cbn [bind] in E; try discriminate.
  assert (F = F1) by (cbn in E; congruence). subst F. apply INV.
Qed.
