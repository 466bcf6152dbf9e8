(** Vector fields: copies; the PDI helpers. *)
From Coq Require Import Lia String.
From Verif Require Import VfdSpec VfdProofs VfdMain.
Open Scope nat_scope.

(** ** Positions *)
Definition pos_of (rg : ranges) (p : index) : list nat := map (fun x => Z.to_nat (p (fst x) - fst (snd x))) rg.
Lemma pos_in : forall rg p, inside rg p -> In (pos_of rg p) (positions (map (fun x => snd (snd x)) rg)).
Proof.
  induction rg as [|[g [f n]] rg IH]; intros p H; [left; reflexivity|]. apply inside_cons in H. destruct H as [H1 H2].
  cbn [map positions pos_of fst snd]. apply in_flat_map. exists (Z.to_nat (p g - f)). split; [apply in_seq; lia|].
  apply in_map. exact (IH p H2).
Qed.
Lemma pos_ex : forall rg k, NoDup (map fst rg) -> In k (positions (map (fun x => snd (snd x)) rg)) ->
  exists p, inside rg p /\ pos_of rg p = k.
Proof.
  induction rg as [|[g [f n]] rg IH]; intros k N H.
  - destruct H as [<-|[]]. exists (fun _ => 0%Z). split; [intros ? ? ? []|reflexivity].
  - inversion N as [|? ? N1 N2]; subst. cbn [map positions fst snd] in H. apply in_flat_map in H.
    destruct H as (i & Hi & H). apply in_map_iff in H. destruct H as (k' & <- & H). apply in_seq in Hi.
    destruct (IH k' N2 H) as (p & Hp & <-). exists (fun h => if h =? g then (f + Z.of_nat i)%Z else p h).
    assert (G : forall x, In x rg -> (fst x =? g) = false).
    { intros x Hx. apply Nat.eqb_neq. intros <-. apply N1. apply in_map. exact Hx. }
    split.
    + apply inside_cons. split; [rewrite Nat.eqb_refl; lia|]. intros h f' n' X. specialize (G _ X). cbn in G. rewrite G. apply Hp. exact X.
    + cbn [pos_of map fst snd]. rewrite Nat.eqb_refl. f_equal; [lia|]. unfold pos_of. apply map_ext_in. intros x Hx. rewrite (G x Hx). reflexivity.
Qed.
Lemma at_pos : forall ds b p, inside (map (fun d => (d_grid d, (d_front d, d_size d))) ds) p ->
  at_position ds b (pos_of (map (fun d => (d_grid d, (d_front d, d_size d))) ds) p) = addr (View b ds) p.
Proof.
  intros ds b p. unfold addr. cbn [v_base v_dims]. induction ds as [|d ds IH]; intros H; [reflexivity|].
  cbn [map] in H. apply inside_cons in H. destruct H as [H1 H2]. cbn [map pos_of fst snd at_position fold_right].
  unfold pos_of in IH. rewrite (IH H2). rewrite Z2Nat.id by lia. reflexivity.
Qed.
Lemma corr_pos : forall rg rg' p q, inside rg p -> inside rg' q ->
  (corresponding rg rg' p q <-> pos_of rg p = pos_of rg' q).
Proof.
  induction rg as [|[g [f n]] rg IH]; intros [|[g' [f' n']] rg'] p q Hp Hq; split; intros C; try discriminate.
  - reflexivity.
  - constructor.
  - inversion C.
  - inversion C.
  - inversion C as [|? ? ? ? C1 C2]; subst. cbn [fst snd] in C1. apply inside_cons in Hp. apply inside_cons in Hq.
    cbn [pos_of map fst snd]. f_equal; [rewrite C1; reflexivity|]. apply IH; [apply Hp|apply Hq|exact C2].
  - cbn [pos_of map fst snd] in C. injection C as C1 C2. apply inside_cons in Hp. apply inside_cons in Hq.
    constructor; [cbn [fst snd]; lia|]. apply IH; [apply Hp|apply Hq|exact C2].
Qed.
Lemma pos_same : forall rg p q, inside rg p -> inside rg q -> pos_of rg p = pos_of rg q -> same_point rg p q.
Proof.
  intros rg p q Hp Hq E g [f n] X. unfold pos_of in E. apply In_nth_error in X. destruct X as (i & X).
  assert (E' := f_equal (fun l => nth_error l i) E). cbv beta in E'. rewrite !nth_error_map, X in E'. cbn in E'. injection E' as E'.
  assert (Y := nth_error_In _ _ X). specialize (Hp g f n Y). specialize (Hq g f n Y). lia.
Qed.

(** ** Copy of a component *)
Lemma store_ok : forall m a r, m a <> Free -> exists m1, store m a r = Ok m1 /\ forall b, m1 b = if Z.eqb b a then Val r else m b.
Proof. intros m a r H. unfold store. destruct (m a); [congruence|eexists; split; reflexivity..]. Qed.
Lemma copy_each_ok : forall dst src l m,
  (forall k, In k l -> exists r, m (at_position (v_dims src) (v_base src) k) = Val r) ->
  (forall k, In k l -> m (at_position (v_dims dst) (v_base dst) k) <> Free) ->
  (forall k k', In k l -> In k' l -> at_position (v_dims src) (v_base src) k <> at_position (v_dims dst) (v_base dst) k') ->
  (forall k k', In k l -> In k' l -> at_position (v_dims dst) (v_base dst) k = at_position (v_dims dst) (v_base dst) k' -> k = k') ->
  exists m', copy_each m dst src l = Ok m' /\
    (forall k, In k l -> m' (at_position (v_dims dst) (v_base dst) k) = m (at_position (v_dims src) (v_base src) k)) /\
    (forall a, (forall k, In k l -> a <> at_position (v_dims dst) (v_base dst) k) -> m' a = m a).
Proof.
  intros dst src. set (D := at_position (v_dims dst) (v_base dst)). set (S' := at_position (v_dims src) (v_base src)).
  induction l as [|k l IH]; intros m H1 H2 H3 H4.
  - exists m. split; [reflexivity|split; [intros ? []|reflexivity]].
  - destruct (H1 k (or_introl eq_refl)) as (r & Er). cbn [copy_each]. fold (S' k). fold (D k). unfold load. rewrite Er. cbn [bind].
    destruct (store_ok m (D k) r (H2 k (or_introl eq_refl))) as (m1 & -> & Em). cbn [bind].
    destruct (IH m1) as (m' & E & V & U).
    + intros k' Hk. rewrite Em. destruct (Z.eqb_spec (S' k') (D k)) as [X|_]; [eauto|]. apply H1. right. exact Hk.
    + intros k' Hk. rewrite Em. destruct (Z.eqb (D k') (D k)); [discriminate|]. apply H2. right. exact Hk.
    + intros x y Hx Hy. apply H3; right; assumption.
    + intros x y Hx Hy. apply H4; right; assumption.
    + exists m'. split; [exact E|]. split.
      * intros x [<-|Hx].
        -- destruct (in_dec (list_eq_dec Nat.eq_dec) k l) as [Y|NY].
           ++ rewrite (V k Y), Em. destruct (Z.eqb_spec (S' k) (D k)) as [X|_]; [|reflexivity].
              exfalso. apply (H3 k k); [left; reflexivity|left; reflexivity|exact X].
           ++ rewrite U; [rewrite Em, Z.eqb_refl; symmetry; exact Er|]. intros y Hy X. apply NY.
              rewrite (H4 k y); [exact Hy|left; reflexivity|right; exact Hy|exact X].
        -- rewrite (V x Hx), Em. destruct (Z.eqb_spec (S' x) (D k)) as [X|_]; [|reflexivity].
           exfalso. apply (H3 x k); [right; exact Hx|left; reflexivity|exact X].
      * intros a Ha. rewrite U; [|intros y Hy; apply Ha; right; exact Hy]. rewrite Em.
        destruct (Z.eqb_spec a (D k)) as [X|_]; [|reflexivity]. exfalso. apply (Ha k); [left; reflexivity|exact X].
Qed.

Lemma extents_range : forall v, extents v = map (fun x => snd (snd x)) (range_of v).
Proof. intros v. unfold extents, range_of. rewrite map_map. reflexivity. Qed.

Lemma parallel_deepcopy_ok : forall m dst src rgd rgs,
  range_of dst = rgd -> range_of src = rgs -> NoDup (map fst rgd) -> NoDup (map fst rgs) -> same_extents rgd rgs ->
  (forall p q, inside rgd p -> inside rgd q -> addr dst p = addr dst q -> same_point rgd p q) ->
  (forall p, inside rgd p -> m (addr dst p) <> Free) ->
  (forall q, inside rgs q -> exists r, m (addr src q) = Val r) ->
  (forall p q, inside rgd p -> inside rgs q -> addr dst p <> addr src q) ->
  exists m', parallel_deepcopy m dst src = Ok m' /\
    (forall p q, inside rgd p -> inside rgs q -> corresponding rgd rgs p q -> m' (addr dst p) = m (addr src q)) /\
    (forall a, (forall p, inside rgd p -> a <> addr dst p) -> m' a = m a).
Proof.
  intros m [bd dd] [bs dsr] rgd rgs <- <- ND NS SE INJ W HV DJ. unfold parallel_deepcopy. unfold range_of in *. cbn [v_dims v_base] in *.
  unfold same_extents in SE. rewrite !map_map in SE. cbn [snd] in SE. unfold extents at 1 2. cbn [v_dims].
  destruct (list_eq_dec Nat.eq_dec (map d_size dd) (map d_size dsr)) as [_|NE]; [|contradiction].
  set (rd := map (fun d => (d_grid d, (d_front d, d_size d))) dd) in *. set (rs := map (fun d => (d_grid d, (d_front d, d_size d))) dsr) in *.
  assert (PD : extents (View bd dd) = map (fun x => snd (snd x)) rd) by (apply (extents_range (View bd dd))).
  assert (PS : extents (View bd dd) = map (fun x => snd (snd x)) rs) by (unfold rs; rewrite map_map; exact SE).
  assert (XD : forall k, In k (positions (extents (View bd dd))) -> exists p, inside rd p /\ pos_of rd p = k /\ at_position dd bd k = addr (View bd dd) p).
  { intros k Hk. rewrite PD in Hk. destruct (pos_ex rd k ND Hk) as (p & Hp & EP). exists p. split; [exact Hp|split; [exact EP|]].
    rewrite <- EP. apply at_pos. exact Hp. }
  assert (XS : forall k, In k (positions (extents (View bd dd))) -> exists q, inside rs q /\ pos_of rs q = k /\ at_position dsr bs k = addr (View bs dsr) q).
  { intros k Hk. rewrite PS in Hk. destruct (pos_ex rs k NS Hk) as (p & Hp & EP). exists p. split; [exact Hp|split; [exact EP|]].
    rewrite <- EP. apply at_pos. exact Hp. }
  destruct (copy_each_ok (View bd dd) (View bs dsr) (positions (extents (View bd dd))) m) as (m' & E & V & U); cbn [v_dims v_base] in *.
  - intros k Hk. destruct (XS k Hk) as (q & Hq & _ & ->). apply HV. exact Hq.
  - intros k Hk. destruct (XD k Hk) as (p & Hp & _ & ->). apply W. exact Hp.
  - intros k k' Hk Hk'. destruct (XS k Hk) as (q & Hq & _ & ->). destruct (XD k' Hk') as (p & Hp & _ & ->).
    intros X. apply (DJ p q Hp Hq). symmetry. exact X.
  - intros k k' Hk Hk' X. destruct (XD k Hk) as (p & Hp & <- & A1). destruct (XD k' Hk') as (q & Hq & <- & A2).
    rewrite A1, A2 in X. unfold pos_of. apply map_ext_in. intros x Hx. rewrite (INJ p q Hp Hq X (fst x) (snd x)); [reflexivity|].
    destruct x; exact Hx.
  - exists m'. split; [exact E|]. split.
    + intros p q Hp Hq C. apply corr_pos in C; [|assumption..].
      rewrite <- (at_pos dd bd p Hp), <- (at_pos dsr bs q Hq). fold rd. fold rs. rewrite <- C. apply V. rewrite PD. apply pos_in. exact Hp.
    + intros a Ha. apply U. intros k Hk. destruct (XD k Hk) as (p & Hp & _ & ->). apply Ha. exact Hp.
Qed.

(** ** Copy of a vector field *)
Theorem deepcopy_ok : forall m dst src rgd rgs, on_range dst rgd -> on_range src rgs -> vf_tags src = vf_tags dst ->
  same_extents rgd rgs -> separate dst rgd -> writable m dst rgd ->
  (forall a, uses dst rgd a -> ~ uses src rgs a) ->
  (forall q, inside rgs q -> exists vec, holds m src q vec) ->
  exists m', deepcopy m dst src = Ok m' /\ writable m' dst rgd /\ unchanged_but (uses dst rgd) m m' /\
    forall p q vec, inside rgd p -> inside rgs q -> corresponding rgd rgs p q -> holds m src q vec -> holds m' dst p vec.
Proof.
  intros m dst src rgd rgs OD OS ET SE SP W DJ HV.
  pose proof OD as (ND & LD & GD & FD). pose proof OS as (NS & LS & GS & FS). rewrite Forall_forall in FD, FS.
  assert (DEF : deepcopy m dst src = deepcopy_tags m dst src (vf_tags dst)).
  { unfold deepcopy. destruct (vf_vals dst) as [|d ld]; [reflexivity|]. destruct (vf_vals src) as [|s ls]; [reflexivity|].
    destruct (list_eq_dec Nat.eq_dec (extents d) (extents s)) as [_|NE]; [reflexivity|]. exfalso. apply NE.
    rewrite !extents_range, (FD d), (FS s); [exact SE|left; reflexivity..]. }
  rewrite DEF. clear DEF.
  assert (IND : forall k n m1, k = length (vf_tags dst) - n -> n <= length (vf_tags dst) -> writable m1 dst rgd ->
    (forall a, uses src rgs a -> m1 a = m a) ->
    exists m', deepcopy_tags m1 dst src (skipn n (vf_tags dst)) = Ok m' /\ writable m' dst rgd /\
      (forall i d s p q, n <= i -> nth_error (vf_vals dst) i = Some d -> nth_error (vf_vals src) i = Some s ->
         inside rgd p -> inside rgs q -> corresponding rgd rgs p q -> m' (addr d p) = m (addr s q)) /\
      (forall a, (forall i d p, n <= i -> nth_error (vf_vals dst) i = Some d -> inside rgd p -> a <> addr d p) -> m' a = m1 a)).
  { induction k as [|k IH]; intros n m1 Ek Hn W1 K1.
    - rewrite skipn_all2 by lia. exists m1. split; [reflexivity|split; [exact W1|split]].
      + intros i d s p q Hi Hd. assert (i < length (vf_vals dst)) by (apply nth_error_Some; congruence). lia.
      + reflexivity.
    - destruct (nth_error (vf_tags dst) n) as [t|] eqn:Ht; [|apply nth_error_None in Ht; lia].
      destruct (nth_error (vf_vals dst) n) as [d|] eqn:Hd; [|apply nth_error_None in Hd; lia].
      destruct (nth_error (vf_vals src) n) as [s|] eqn:Hs; [|apply nth_error_None in Hs; rewrite LS, ET in Hs; lia].
      assert (Es : skipn n (vf_tags dst) = t :: skipn (S n) (vf_tags dst)).
      { clear -Ht. revert n Ht. induction (vf_tags dst) as [|u l IHl]; intros n Ht; [destruct n; discriminate|].
        destruct n as [|n]; cbn in *; [injection Ht as ->; reflexivity|]. apply IHl. exact Ht. }
      rewrite Es. cbn [deepcopy_tags]. rewrite (component_nth dst n t d ND Ht Hd). cbn [bind].
      rewrite (component_nth src n t s NS); [|rewrite ET; exact Ht|exact Hs]. cbn [bind].
      assert (InD := nth_error_In _ _ Hd). assert (InS := nth_error_In _ _ Hs).
      destruct (parallel_deepcopy_ok m1 d s rgd rgs (FD d InD) (FS s InS) GD GS SE) as (m2 & E2 & V2 & U2).
      { intros p q Hp Hq EA. exact (proj2 (SP n n d d p q Hd Hd Hp Hq EA)). }
      { intros p Hp. apply W1; assumption. }
      { intros q Hq. destruct (HV q Hq) as (vec & Hh). rewrite K1; [|exists q; split; [exact Hq|exists s; split; [exact InS|reflexivity]]].
        clear -Hh InS. unfold holds in Hh. induction Hh as [|v r vs rs Hv _ IH]; [destruct InS|].
        destruct InS as [->|InS]; [eauto|exact (IH InS)]. }
      { intros p q Hp Hq EA. apply (DJ (addr d p)).
        - exists p. split; [exact Hp|exists d; split; [exact InD|reflexivity]].
        - exists q. split; [exact Hq|exists s; split; [exact InS|exact EA]]. }
      rewrite E2. cbn [bind].
      assert (K2 : forall a, uses src rgs a -> m2 a = m1 a).
      { intros a Ha. apply U2. intros p Hp ->. apply (DJ (addr d p)); [|exact Ha]. exists p. split; [exact Hp|exists d; split; [exact InD|reflexivity]]. }
      destruct (IH (S n) m2) as (m' & E & W' & V & U); [lia|lia| | |].
      { intros v p Hv Hp. destruct (in_dec Z.eq_dec (addr v p) []) as [[]|_].
        assert (DEC : m2 (addr v p) = m1 (addr v p) \/ exists q, inside rgd q /\ addr v p = addr d q).
        { destruct (In_nth_error _ _ Hv) as (j & Hj). destruct (Nat.eq_dec n j) as [<-|NJ].
          - right. exists p. split; [exact Hp|]. congruence.
          - left. apply U2. intros q Hq EA. destruct (SP j n v d p q Hj Hd Hp Hq EA). lia. }
        destruct DEC as [->|(q & Hq & ->)]; [apply W1; assumption|].
        (* copied: the value of the source *)
        assert (PQ : exists z, inside rgs z /\ corresponding rgd rgs q z).
        { pose proof (pos_in rgd q Hq) as PI. rewrite SE in PI. destruct (pos_ex rgs _ GS PI) as (z & Hz & EZ).
          exists z. split; [exact Hz|]. apply corr_pos; [exact Hq|exact Hz|symmetry; exact EZ]. }
        destruct PQ as (z & Hz & Cz). rewrite (V2 q z Hq Hz Cz).
        rewrite K1; [|exists z; split; [exact Hz|exists s; split; [exact InS|reflexivity]]].
        destruct (HV z Hz) as (vec & Hh). clear -Hh InS. unfold holds in Hh. induction Hh as [|u r us rs Hu _ IH]; [destruct InS|].
        destruct InS as [->|InS]; [congruence|exact (IH InS)]. }
      { intros a Ha. rewrite (K2 a Ha). apply K1. exact Ha. }
      exists m'. split; [exact E|split; [exact W'|split]].
      + intros i u w p q Hi Hu Hw Hp Hq C. destruct (Nat.eq_dec i n) as [->|NI]; [|apply (V i u w); [lia|assumption..]].
        rewrite Hd in Hu. injection Hu as <-. rewrite Hs in Hw. injection Hw as <-. rewrite U.
        * rewrite (V2 p q Hp Hq C). apply K1. exists q. split; [exact Hq|exists s; split; [exact InS|reflexivity]].
        * intros j v x Hj Hv Hx EA. destruct (SP n j d v p x Hd Hv Hp Hx EA). lia.
      + intros a Ha. rewrite U; [|intros i u p Hi; apply Ha; lia]. apply U2. intros p Hp. apply (Ha n d p); [lia|exact Hd|exact Hp]. }
  destruct (IND (length (vf_tags dst)) 0 m ltac:(lia) ltac:(lia) W ltac:(reflexivity)) as (m' & E & W' & V & U).
  exists m'. cbn [skipn] in E. split; [exact E|split; [exact W'|split]].
  - intros a Ha. apply U. intros i d p _ Hd Hp ->. apply Ha. exists p. split; [exact Hp|exists d; split; [eapply nth_error_In; exact Hd|reflexivity]].
  - intros p q vec Hp Hq C Hh. unfold holds in *.
    assert (LL : length (vf_vals dst) = length vec).
    { rewrite <- (forall2_len _ _ _ _ _ Hh), LS, ET, LD. reflexivity. }
    apply forall2_nth; [exact LL|]. intros i d r Hd Hr.
    destruct (forall2_nth_r _ _ _ _ _ Hh i r Hr) as (s & Hs & Es). rewrite (V i d s p q); [exact Es|lia|assumption..].
Qed.

Theorem deepcopy_extents : forall m dst src rgd rgs, on_range dst rgd -> on_range src rgs -> vf_tags src = vf_tags dst ->
  vf_tags dst <> [] -> ~ same_extents rgd rgs -> deepcopy m dst src = AssertFail.
Proof.
  intros m dst src rgd rgs (ND & LD & GD & FD) (NS & LS & GS & FS) ET NT NE. unfold deepcopy.
  rewrite Forall_forall in FD, FS.
  destruct (vf_vals dst) as [|d ld]; [destruct (vf_tags dst); [contradiction|discriminate]|].
  destruct (vf_vals src) as [|s ls]; [rewrite ET in LS; destruct (vf_tags dst); [contradiction|discriminate]|].
  destruct (list_eq_dec Nat.eq_dec (extents d) (extents s)) as [E|_]; [|reflexivity]. exfalso. apply NE.
  rewrite !extents_range, (FD d), (FS s) in E by (left; reflexivity). exact E.
Qed.

(** ** PDI *)
Theorem expose_vector_ok : forall stem vf rg suffixes, on_range vf rg -> length suffixes = length (vf_tags vf) ->
  exists l, expose_vector_field stem vf suffixes = Ok l /\ length l = length (vf_tags vf) /\
    forall i s v, nth_error suffixes i = Some s -> nth_error (vf_vals vf) i = Some v ->
      nth_error l i = Some ((stem ++ s)%string, v).
Proof.
  intros stem vf rg suffixes O L. pose proof (span_same vf rg O) as E. unfold span_view in E. unfold expose_vector_field.
  destruct (map_all (component vf) (vf_tags vf)) as [vs| | |]; cbn [bind] in *; try discriminate.
  assert (EV : vf_vals vf = vs) by (injection E as E; rewrite <- E; reflexivity). destruct O as (_ & L2 & _). rewrite <- L2 in *.
  rewrite EV in *. clear -L. eexists. split; [reflexivity|]. revert vs L. induction suffixes as [|s ss IH]; intros [|v vs] L; try discriminate.
  - split; [reflexivity|]. intros [|i] ? ? H; discriminate.
  - destruct (IH vs) as [L1 H1]; [cbn in L; lia|]. split; [cbn; rewrite L1; reflexivity|].
    intros [|i] x y Hx Hy; cbn in *; [injection Hx as <-; injection Hy as <-; reflexivity|]. apply H1; assumption.
Qed.
Lemma get_alt_names : forall l, get_name_tuple (alternate l) (length l) = Ok (map fst l) /\
  get_vector_tuple (alternate l) (length l) = Ok (map snd l).
Proof.
  intros l. unfold get_name_tuple, get_vector_tuple.
  assert (G : forall l1 l2, map_all (fun i => match nth_error (alternate (l1 ++ l2)) (i * 2) with Some (Name s) => Ok s | _ => Ub end) (seq (length l1) (length l2)) = Ok (map fst l2) /\
     map_all (fun i => match nth_error (alternate (l1 ++ l2)) (i * 2 + 1) with Some (Vec v) => Ok v | _ => Ub end) (seq (length l1) (length l2)) = Ok (map snd l2)).
  { intros l1 l2. revert l1. induction l2 as [|[s v] l2 IH]; intros l1; [split; reflexivity|].
    assert (A : forall k, nth_error (alternate (l1 ++ (s, v) :: l2)) (length l1 * 2 + k) = nth_error (Name s :: Vec v :: alternate l2) k).
    { clear. induction l1 as [|[s' v'] l1 IH]; intros k; [reflexivity|]. cbn. apply IH. }
    destruct (IH (l1 ++ [(s, v)])) as [I1 I2]. rewrite <- !app_assoc in I1, I2. cbn [app] in I1, I2.
    rewrite app_length in I1, I2. cbn [length] in I1, I2. rewrite Nat.add_1_r in I1, I2.
    cbn [length seq map_all]. pose proof (A 0) as A0. pose proof (A 1) as A1. rewrite Nat.add_0_r in A0. rewrite A0, A1. cbn [nth_error bind].
    rewrite I1, I2. split; reflexivity. }
  apply (G []).
Qed.
Theorem get_arrays_ok : forall file l vs, l <> [] -> NoDup (map snd l) -> complete file (map fst l) ->
  exists vs', PDI_get_arrays file (alternate l) vs = Ok vs' /\
    (forall s v, In (s, v) l -> data_of file s = Some (vs' v)) /\
    (forall v, ~ In v (map snd l) -> vs' v = vs v).
Proof.
  intros file l vs NL N C. unfold PDI_get_arrays.
  assert (LA : (length (alternate l) - 2) / 2 + 1 = length l).
  { assert (X : length (alternate l) = length l * 2) by (clear; induction l as [|[s v] l IH]; cbn; [reflexivity|]; rewrite IH; lia).
    rewrite X. destruct l as [|x l]; [contradiction|]. cbn [length].
    replace (S (length l) * 2 - 2) with (length l * 2) by lia. rewrite Nat.div_mul by lia. lia. }
  rewrite LA. destruct (get_alt_names l) as [-> ->]. cbn [bind]. clear LA NL.
  assert (CE : combine (map fst l) (map snd l) = l) by (clear; induction l as [|[s v] l IH]; cbn; [reflexivity|]; rewrite IH; reflexivity).
  rewrite CE. clear CE. revert vs. induction l as [|[s v] l IH]; intros vs.
  - exists vs. split; [reflexivity|split; [intros ? ? []|reflexivity]].
  - inversion N as [|? ? N1 N2]; subst. destruct (C s (or_introl eq_refl)) as (d & Ed & Es).
    cbn [read_all]. change (s ++ "_extents")%string with (String.append s "_extents"). rewrite Es, Ed, Nat.eqb_refl.
    destruct (IH N2 ltac:(intros x Hx; apply C; right; exact Hx) (fun i => if i =? v then d else vs i)) as (vs' & E & V & U).
    exists vs'. split; [exact E|]. split.
    + intros x w [X|X]; [|exact (V x w X)]. injection X as <- <-. rewrite (U v N1), Nat.eqb_refl. exact Ed.
    + intros w Hw. rewrite U; [|intros X; apply Hw; right; exact X].
      destruct (Nat.eqb_spec w v) as [->|_]; [exfalso; apply Hw; left; reflexivity|reflexivity].
Qed.
Theorem expose_range_ok : forall rg name, (forall g f n, In (g, (f, n)) rg -> (0 <= f < 2 ^ 64)%Z /\ (Z.of_nat n < 2 ^ 64)%Z) ->
  expose_idx_range rg name =
    [((name ++ "_starts")%string, map (fun x => fst (snd x)) rg);
     ((name ++ "_extents")%string, map (fun x => Z.of_nat (snd (snd x))) rg)].
Proof.
  intros rg name H. unfold expose_idx_range, to_size_t.
  assert (A : map (fun x : grid * (Z * nat) => ((fst (snd x) - 0) mod 2 ^ 64)%Z) rg = map (fun x => fst (snd x)) rg).
  { apply map_ext_in. intros [g [f n]] X. cbn [fst snd]. destruct (H g f n X). rewrite Z.sub_0_r. apply Z.mod_small. assumption. }
  assert (B : map (fun x : grid * (Z * nat) => (Z.of_nat (snd (snd x)) mod 2 ^ 64)%Z) rg = map (fun x => Z.of_nat (snd (snd x))) rg).
  { apply map_ext_in. intros [g [f n]] X. cbn [fst snd]. destruct (H g f n X). apply Z.mod_small. lia. }
  rewrite A, B. reflexivity.
Qed.
(** a copy which succeeds: every component has the extents of its source *)
Theorem deepcopy_only_if : forall m dst src m' t d s, deepcopy m dst src = Ok m' -> In t (vf_tags dst) ->
  component dst t = Ok d -> component src t = Ok s -> extents d = extents s.
Proof.
  intros m dst src m' t d s E Ht Ed Es.
  assert (G : exists m', deepcopy_tags m dst src (vf_tags dst) = Ok m').
  { unfold deepcopy in E. destruct (vf_vals dst); [eauto|]. destruct (vf_vals src); [eauto|].
    destruct (list_eq_dec _ _ _); [eauto|discriminate]. }
  clear E m'. destruct G as (m' & E). revert m E. induction (vf_tags dst) as [|u ts IH]; intros m E; [destruct Ht|].
  cbn [deepcopy_tags] in E. destruct (component dst u) as [d1| | |] eqn:E1; cbn [bind] in E; try discriminate.
  destruct (component src u) as [s1| | |] eqn:E2; cbn [bind] in E; try discriminate.
  destruct (parallel_deepcopy m d1 s1) as [m1| | |] eqn:E3; cbn [bind] in E; try discriminate.
  destruct Ht as [->|Ht]; [|exact (IH Ht m1 E)].
  rewrite Ed in E1. rewrite Es in E2. injection E1 as <-. injection E2 as <-. unfold parallel_deepcopy in E3.
  destruct (list_eq_dec Nat.eq_dec (extents d) (extents s)) as [X|_]; [exact X|discriminate].
Qed.
