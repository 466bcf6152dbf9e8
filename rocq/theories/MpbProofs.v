(** Proofs about the multipatch data types and spline builders (C122-C124). *)
From Verif Require Import ConnProofs.
From Verif Require Export MpbSpec.
Open Scope nat_scope.

Lemma all_some_map {A C} (f : A -> C) (e : A -> option C) (l : list A) :
  (forall a, In a l -> e a = Some (f a)) -> all_some (map e l) = Some (map f l).
Proof.
  induction l as [|a l IH]; intros H; simpl; auto.
  rewrite (H a (or_introl eq_refl)), IH; auto. intros; apply H; right; auto.
Qed.
Lemma all_some_none {A C} (e : A -> option C) (l : list A) a :
  In a l -> e a = None -> all_some (map e l) = None.
Proof.
  induction l as [|b l IH]; intros H E; simpl; [destruct H|].
  destruct H as [->|H].
  - now rewrite E.
  - destruct (e b); auto. now rewrite (IH H E).
Qed.
Lemma all_some_inv {A C} (e : A -> option C) (l : list A) cs :
  all_some (map e l) = Some cs -> Forall2 (fun a c => e a = Some c) l cs.
Proof.
  revert cs; induction l as [|a l IH]; intros cs H; simpl in H.
  - injection H as <-. constructor.
  - destruct (e a) eqn:Ea; [|discriminate]. destruct (all_some (map e l)) eqn:El; [|discriminate].
    injection H as <-. constructor; auto.
Qed.
Lemma combine_map2 {A X Y} (f : A -> X) (g : A -> Y) l :
  combine (map f l) (map g l) = map (fun a => (f a, g a)) l.
Proof. induction l; simpl; congruence. Qed.

(** ** Tuples *)
Lemma std_get_distinct {T V} dec (F : patch -> T) (f : patch -> V) ps p :
  NoDup ps -> distinct_on F ps -> In p ps ->
  std_get dec (F p) (map (fun q => (F q, f q)) ps) = Some (f p).
Proof.
  intros ND D Hp. unfold std_get.
  replace (filter (fun x : T * V => if dec (F p) (fst x) then true else false)
             (map (fun q => (F q, f q)) ps)) with [(F p, f p)]; auto.
  revert ND D Hp. induction ps as [|q ps IH]; intros ND D Hp; [destruct Hp|].
  inversion ND as [|? ? Hq ND']; subst. simpl.
  assert (D' : distinct_on F ps) by (intros a b Ha Hb; apply D; right; auto).
  destruct Hp as [->|Hp].
  - destruct (dec (F p) (F p)) as [_|n]; [|congruence]. f_equal.
    clear IH ND D'. symmetry.
    induction ps as [|a ps IH]; auto. simpl.
    destruct (dec (F p) (F a)) as [E|_].
    + exfalso. apply Hq. left. symmetry. apply D; simpl; auto.
    + apply IH.
      * intros x y [<-|Hx] [<-|Hy] E; auto; apply D; simpl; auto.
      * intros H; apply Hq; right; auto.
      * now inversion ND'.
  - destruct (dec (F p) (F q)) as [E|_].
    + exfalso. apply Hq. assert (p = q) as -> by (apply D; simpl; auto). auto.
    + now apply IH.
Qed.

Lemma from_args_map {V} (T : patch -> nat) ps (f : patch -> V) :
  from_args T ps (map (fun p => (T p, f p)) ps) = Some (MP T ps (map (fun p => (T p, f p)) ps)).
Proof.
  unfold from_args. destruct (list_eq_dec Nat.eq_dec _ _) as [|n]; auto.
  exfalso; apply n. rewrite map_map; auto.
Qed.
Lemma per_patch_map {V} (T : patch -> nat) ps (e : patch -> option V) f :
  (forall p, In p ps -> e p = Some (f p)) ->
  per_patch T ps e = Some (MP T ps (map (fun p => (T p, f p)) ps)).
Proof.
  intros H. unfold per_patch. rewrite (all_some_map f e ps H), combine_map2. apply from_args_map.
Qed.
Lemma holds_map {V} (T : patch -> nat) ps (f : patch -> V) : NoDup ps -> distinct_on T ps ->
  holds (MP T ps (map (fun p => (T p, f p)) ps)) ps f.
Proof. intros ND D. split; auto. intros p Hp. unfold mp_get; simpl. now apply std_get_distinct. Qed.

(** ** C122 *)
Lemma new_multipatch {V} T ps (f : patch -> V) : NoDup ps -> distinct_on T ps ->
  exists m, from_args T ps (map (fun p => (T p, f p)) ps) = Some m /\ holds m ps f.
Proof. intros ND D. eexists; split; [apply from_args_map|]. now apply holds_map. Qed.

Lemma filter_one {T V} (dec : forall a b : T, {a = b} + {a <> b}) t (l : tuple T V) :
  (exists v, std_get dec t l = Some v) <->
  (In t (map fst l) /\ forall i j, nth_error (map fst l) i = Some t -> nth_error (map fst l) j = Some t -> i = j).
Proof.
  unfold std_get. induction l as [|[a v] l IH]; simpl.
  - split; [intros [v H]; discriminate | intros [[] _]].
  - destruct (dec t a) as [<-|n].
    + destruct (filter (fun x : T * V => if dec t (fst x) then true else false) l) as [|x r] eqn:E.
      * assert (N : ~ In t (map fst l)).
        { intros H. apply in_map_iff in H as [[b w] [Hb Hin]]. simpl in Hb. subst b.
          assert (In (t, w) (filter (fun x : T * V => if dec t (fst x) then true else false) l)) as Hf.
          { apply filter_In. split; auto. simpl. destruct (dec t t); auto. }
          rewrite E in Hf; destruct Hf. }
        split; [intros _ | intros _; eauto]. split; auto.
        intros [|i] [|j] Hi Hj; auto; simpl in *.
        -- exfalso; apply N; eapply nth_error_In; eauto.
        -- exfalso; apply N; eapply nth_error_In; eauto.
        -- exfalso; apply N; eapply nth_error_In; eauto.
      * split; [intros [w H]; discriminate|]. intros [_ H]. exfalso.
        assert (Hx : In x (filter (fun x : T * V => if dec t (fst x) then true else false) l))
          by (rewrite E; left; auto).
        apply filter_In in Hx as [Hx Ht].
        destruct (dec t (fst x)) as [Ex|]; [|discriminate].
        apply (in_map fst) in Hx. rewrite <- Ex in Hx. apply In_nth_error in Hx as [k Hk].
        specialize (H 0 (S k) eq_refl Hk). discriminate.
    + rewrite IH. split; intros [Hin H]; (split; [tauto || (destruct Hin; [congruence|auto])|]).
      * intros [|i] [|j] Hi Hj; simpl in *; try congruence. f_equal; eauto.
      * intros i j Hi Hj. assert (S i = S j) as E by (apply H; auto). congruence.
Qed.

Lemma get_iff {V} T ps (args : tuple nat V) m p : from_args T ps args = Some m -> In p ps ->
  (exists v, mp_get p m = Some v) <-> once T ps p.
Proof.
  unfold from_args. destruct (list_eq_dec Nat.eq_dec _ _) as [E|]; [|discriminate].
  intros H Hp. injection H as <-. unfold mp_get; simpl. rewrite filter_one, E. unfold once.
  split; [tauto|]. intros H; split; auto. apply in_map; auto.
Qed.

Lemma convert_ok {V} T ps (other : multipatch V) os f : holds other os f -> NoDup ps -> distinct_on T ps ->
  incl ps os -> (forall p, In p ps -> T p = mp_type other p) ->
  exists m, convert T ps other = Some m /\ holds m ps f.
Proof.
  intros [Hos Hf] ND D I HT. unfold convert.
  replace (forallb (fun p => if in_dec patch_eq_dec p (mp_patches other) then true else false) ps) with true.
  2:{ symmetry. apply forallb_forall. intros p Hp. destruct (in_dec _ _ _) as [|n]; auto.
      exfalso. apply n. rewrite Hos. auto. }
  destruct (list_eq_dec Nat.eq_dec _ _) as [|n].
  2:{ exfalso. apply n. apply map_ext_in. auto. }
  rewrite (per_patch_map T ps _ f); [|auto].
  eexists; split; eauto. now apply holds_map.
Qed.

Lemma convert_inv {V} T ps (other : multipatch V) m : NoDup ps -> distinct_on T ps ->
  convert T ps other = Some m ->
  incl ps (mp_patches other) /\ mp_patches m = ps /\
  forall p, In p ps -> T p = mp_type other p /\ mp_get p m = mp_get p other /\ mp_get p other <> None.
Proof.
  intros ND D. unfold convert.
  destruct (forallb _ ps) eqn:EI; [|discriminate].
  destruct (list_eq_dec Nat.eq_dec _ _) as [ET|]; [|discriminate].
  unfold per_patch. destruct (all_some _) as [vs|] eqn:EA; [|discriminate].
  intros H. split; [|].
  - intros p Hp. rewrite forallb_forall in EI. specialize (EI p Hp).
    destruct (in_dec patch_eq_dec p (mp_patches other)); congruence.
  - apply all_some_inv in EA.
    assert (G : forall p, In p ps -> mp_get p other <> None).
    { clear -EA. induction EA as [|a c l cs Ha _ IH]; intros p Hp; [destruct Hp|].
      destruct Hp as [->|Hp]; auto. congruence. }
    assert (EA' : exists f : patch -> option V, True) by (exists (fun _ => None); auto).
    assert (EM : from_args T ps (combine (map T ps) vs) = Some m -> mp_patches m = ps /\
                 forall p, In p ps -> mp_get p m = mp_get p other).
    { unfold from_args. destruct (list_eq_dec Nat.eq_dec _ _); [|discriminate].
      intros HM. injection HM as <-. split; auto. intros p Hp. unfold mp_get at 1. simpl.
      assert (exists v0 : V, True) as [v0 _] by (destruct EA as [|? c]; [destruct Hp|exists c; auto]).
      set (f := fun q => match mp_get q other with Some v => v | None => v0 end).
      replace vs with (map f ps).
      2:{ clear -EA. unfold f. clear f. induction EA as [|a c l cs Ha _ IH]; simpl; auto. rewrite Ha, IH; auto. }
      rewrite combine_map2, std_get_distinct; auto.
      unfold f. destruct (mp_get p other) eqn:E; auto. exfalso; eapply G; eauto. }
    destruct (EM H) as [H1 H2]. split; auto. intros p Hp. repeat apply conj; auto.
    clear -ET Hp. revert ET. induction ps as [|a l IH]; simpl; intros ET; [destruct Hp|].
    injection ET as E1 E2. destruct Hp as [->|Hp]; auto.
Qed.

Lemma convert_temporary_ok {V} T ps (other : multipatch V) f : holds other ps f -> NoDup ps ->
  distinct_on T ps -> (forall p, In p ps -> T p = mp_type other p) ->
  exists m, convert_temporary T ps other = Some m /\ holds m ps f.
Proof.
  intros [Hos Hf] ND D HT. unfold convert_temporary. rewrite Hos.
  destruct (list_eq_dec patch_eq_dec _ _) as [_|]; [|congruence].
  destruct (list_eq_dec Nat.eq_dec _ _) as [|n].
  2:{ exfalso. apply n. apply map_ext_in. auto. }
  rewrite (per_patch_map T ps _ f); [|auto]. eexists; split; eauto. now apply holds_map.
Qed.
Lemma convert_temporary_order {V} T ps (other : multipatch V) m :
  convert_temporary T ps other = Some m -> mp_patches other = ps.
Proof.
  unfold convert_temporary. destruct (list_eq_dec patch_eq_dec _ _); [auto|discriminate].
Qed.

Lemma field_from_ok {V} T ps (other : multipatch V) os f : holds other os f -> NoDup ps -> distinct_on T ps ->
  incl ps os -> exists m, field_from T ps other = Some m /\ holds m ps f.
Proof.
  intros [Hos Hf] ND D I. unfold field_from. rewrite (per_patch_map T ps _ f); [|auto].
  eexists; split; eauto. now apply holds_map.
Qed.

Lemma mp_map_ok {V W} T' (g : V -> W) (m : multipatch V) ps f : holds m ps f -> NoDup ps ->
  distinct_on T' ps -> exists m', mp_map T' g m = Some m' /\ holds m' ps (fun p => g (f p)).
Proof.
  intros [Hps Hf] ND D. unfold mp_map. rewrite Hps.
  rewrite (per_patch_map T' ps _ (fun p => g (f p))).
  - eexists; split; eauto. now apply holds_map.
  - intros p Hp. specialize (Hf p Hp). unfold mp_get in Hf. now rewrite Hf.
Qed.

Lemma field_mem_args_none {V} T ps st (label : V) args :
  length args = length ps -> field_mem_from_args T ps st label args = None.
Proof.
  intros H. unfold field_mem_from_args, from_args.
  destruct (list_eq_dec Nat.eq_dec _ _) as [E|]; auto.
  apply (f_equal (@length _)) in E. rewrite !map_length in E. simpl in E. lia.
Qed.

(** ** Memory *)
Lemma alloc_each_ok {A} (raw : A) ps (size : patch -> nat) (m : mem A) : NoDup ps ->
  exists (f : patch -> nat) m', alloc_each raw (map size ps) m = (map f ps, m') /\
    (forall p, In p ps -> length m <= f p /\ nth_error m' (f p) = Some (repeat raw (size p))) /\
    distinct_on f ps /\ (forall h, h < length m -> nth_error m' h = nth_error m h) /\
    length m <= length m'.
Proof.
  revert m; induction ps as [|p ps IH]; intros m ND; simpl.
  - exists (fun _ => 0), m. repeat apply conj; auto; [intros p []|intros p q []].
  - inversion ND as [|? ? Hp ND']; subst.
    destruct (IH (m ++ [repeat raw (size p)]) ND') as (f & m' & E & H1 & H2 & H3 & H4).
    rewrite E. rewrite app_length in *. simpl in *.
    exists (fun q => if patch_eq_dec q p then length m else f q), m'. repeat apply conj.
    + f_equal. destruct (patch_eq_dec p p) as [_|]; [|congruence]. f_equal.
      apply map_ext_in. intros q Hq. destruct (patch_eq_dec q p) as [->|]; auto. contradiction.
    + intros q Hq. destruct (patch_eq_dec q p) as [->|n].
      * split; auto. rewrite H3 by lia. rewrite nth_error_app2, Nat.sub_diag; auto.
      * destruct Hq as [->|Hq]; [congruence|]. destruct (H1 q Hq). split; auto; lia.
    + intros q r Hq Hr. destruct (patch_eq_dec q p) as [->|n], (patch_eq_dec r p) as [->|n']; auto.
      * destruct Hr as [->|Hr]; [congruence|]. destruct (H1 r Hr). lia.
      * destruct Hq as [->|Hq]; [congruence|]. destruct (H1 q Hq). lia.
      * destruct Hq as [->|Hq], Hr as [->|Hr]; try congruence. auto.
    + intros h Hh. rewrite H3 by lia. now rewrite nth_error_app1.
    + lia.
Qed.

Lemma new_field_mem_ok {A} (raw : A) T ps ranges os size (m : mem A) : holds ranges os size -> NoDup ps ->
  distinct_on T ps -> incl ps os ->
  exists f fm m', new_field_mem raw T ps ranges m = Some (fm, m') /\ holds fm ps f /\
    (forall p, In p ps -> length m <= f p /\ nth_error m' (f p) = Some (repeat raw (size p))) /\
    distinct_on f ps /\ (forall h, h < length m -> nth_error m' h = nth_error m h).
Proof.
  intros [Hos Hf] ND D I. unfold new_field_mem.
  rewrite (all_some_map size); [|intros p Hp; apply Hf, I; auto].
  destruct (alloc_each_ok raw ps size m ND) as (f & m' & E & H1 & H2 & H3 & _).
  rewrite E, combine_map2, from_args_map. simpl. exists f. eexists. exists m'.
  split; [reflexivity|]. split; [now apply holds_map|]. auto.
Qed.

Lemma load_ok {A} (m : mem A) h c : load m h = Ok c <-> nth_error m h = Some c.
Proof. unfold load. destruct (nth_error m h); split; intros H; congruence. Qed.
Lemma store_inv {A} (m m' : mem A) h c : store m h c = Ok m' ->
  nth_error m' h = Some c /\ forall k, k <> h -> nth_error m' k = nth_error m k.
Proof.
  unfold store. destruct (nth_error m h) eqn:E; [|discriminate]. intros H. injection H as <-. split.
  - apply nth_error_replace_eq. apply nth_error_Some. congruence.
  - intros k Hk. apply nth_error_replace_neq. auto.
Qed.
Lemma store_ok {A} (m : mem A) h c d : nth_error m h = Some d -> exists m', store m h c = Ok m'.
Proof. unfold store. intros ->. eauto. Qed.

Lemma copy_each_ok {A} ps (f g : patch -> nat) : NoDup ps -> distinct_on f ps ->
  (forall p q, In p ps -> In q ps -> f p <> g q) -> forall m : mem A,
  (forall p, In p ps -> exists d s, nth_error m (f p) = Some d /\ nth_error m (g p) = Some s /\ length d = length s) ->
  exists m', copy_each (map (fun p => (f p, g p)) ps) m = Ok m' /\
    (forall p, In p ps -> nth_error m' (f p) = nth_error m (g p)) /\
    (forall h, (forall p, In p ps -> h <> f p) -> nth_error m' h = nth_error m h).
Proof.
  induction ps as [|p ps IH]; intros ND D Dj m Hm; simpl.
  - exists m. repeat apply conj; auto. intros p [].
  - inversion ND as [|? ? Hp ND']; subst.
    destruct (Hm p (or_introl eq_refl)) as (d & s & Hd & Hs & Hl).
    unfold copy, load. rewrite Hs, Hd. simpl. rewrite Hl, Nat.eqb_refl.
    destruct (store_ok m (f p) s d Hd) as [m1 E1]. rewrite E1. simpl.
    destruct (store_inv _ _ _ _ E1) as [S1 S2].
    destruct (IH ND') with (m := m1) as (m' & E & H1 & H2).
    + intros a b Ha Hb; apply D; right; auto.
    + intros a b Ha Hb; apply Dj; right; auto.
    + intros q Hq. destruct (Hm q (or_intror Hq)) as (d' & s' & Hd' & Hs' & Hl').
      exists d', s'. rewrite !S2; auto.
      * intros E'. eapply Dj with (p := p) (q := q); simpl; auto.
      * intros E'. apply D in E'; simpl; auto. subst; contradiction.
    + exists m'. split; auto. split.
      * intros q [<-|Hq].
        -- rewrite H2, S1; auto. intros q Hq E'. apply D in E'; simpl; auto. subst; contradiction.
        -- rewrite H1, S2; auto. intros E'. eapply Dj with (p := p) (q := q); simpl; auto.
      * intros h Hh. rewrite H2, S2; auto; intros; apply Hh; auto.
        all: simpl; auto.
Qed.

Lemma deepcopy_ok {A} dst src ps f g (m : mem A) : holds dst ps f -> holds src ps g -> NoDup ps ->
  writes_apart ps f [g] ->
  (forall p, In p ps -> exists d s, nth_error m (f p) = Some d /\ nth_error m (g p) = Some s /\ length d = length s) ->
  exists run m', deepcopy dst src = Some run /\ run m = Ok m' /\
    (forall p, In p ps -> nth_error m' (f p) = nth_error m (g p)) /\
    (forall h, (forall p, In p ps -> h <> f p) -> nth_error m' h = nth_error m h).
Proof.
  intros [Hd Hf] [Hs Hg] ND [D Dj] Hm. unfold deepcopy. rewrite Hd, Hs.
  destruct (list_eq_dec patch_eq_dec ps ps) as [_|]; [|congruence].
  rewrite (all_some_map f), (all_some_map g); auto. rewrite combine_map2.
  destruct (copy_each_ok (A := A) ps f g ND D) with (m := m) as (m' & E & H1 & H2); auto.
  - intros p q Hp Hq. apply (Dj p q g); simpl; auto.
  - exists (copy_each (map (fun a => (f a, g a)) ps)), m'. auto.
Qed.

Lemma copy_each_lengths {A} (hs : list (nat * nat)) : forall m m' : mem A, copy_each hs m = Ok m' ->
  map (@length A) m' = map (@length A) m.
Proof.
  induction hs as [|[d s] hs IH]; intros m m' H; simpl in H; [congruence|].
  unfold copy, load in H. destruct (nth_error m s) as [cs|] eqn:Es; [|discriminate].
  destruct (nth_error m d) as [cd|] eqn:Ed; [|discriminate]. simpl in H.
  destruct (length cd =? length cs) eqn:El; [|discriminate].
  unfold store in H. rewrite Ed in H. simpl in H. rewrite (IH _ _ H).
  apply Nat.eqb_eq in El. clear -Ed El.
  revert d Ed. induction m as [|a m IH]; intros [|d] Ed; simpl in *; auto; try discriminate.
  - injection Ed as ->. congruence.
  - f_equal. auto.
Qed.
Lemma copy_extents {A} (hs : list (nat * nat)) : forall m m' : mem A, copy_each hs m = Ok m' ->
  forall d s, In (d, s) hs -> option_map (@length A) (nth_error m d) = option_map (@length A) (nth_error m s)
    /\ nth_error m d <> None.
Proof.
  induction hs as [|[d s] hs IH]; intros m m' H d' s' Hin; [destruct Hin|].
  simpl in H. destruct (copy d s m) as [m1| | |] eqn:E1; try discriminate. simpl in H.
  assert (L : map (@length A) m1 = map (@length A) m).
  { apply (copy_each_lengths [(d, s)]). simpl. now rewrite E1. }
  destruct Hin as [Hin|Hin].
  - injection Hin as <- <-. unfold copy, load in E1.
    destruct (nth_error m s) as [cs|] eqn:Es; [|discriminate].
    destruct (nth_error m d) as [cd|] eqn:Ed; [|discriminate]. simpl in E1.
    destruct (length cd =? length cs) eqn:El; [|discriminate]. apply Nat.eqb_eq in El.
    simpl. split; congruence.
  - destruct (IH _ _ H _ _ Hin) as [H1 H2].
    assert (N : forall k, option_map (@length A) (nth_error m1 k) = option_map (@length A) (nth_error m k)).
    { intros k. rewrite <- !nth_error_map. now rewrite L. }
    rewrite !N in H1. split; auto. intros HN. apply H2. specialize (N d'). rewrite HN in N.
    destruct (nth_error m1 d'); auto; discriminate.
Qed.
Lemma deepcopy_extents {A} dst src ps f g (m m' : mem A) run : holds dst ps f -> holds src ps g ->
  deepcopy dst src = Some run -> run m = Ok m' -> forall p, In p ps ->
  exists d s, nth_error m (f p) = Some d /\ nth_error m (g p) = Some s /\ length d = length s.
Proof.
  intros [Hd Hf] [Hs Hg]. unfold deepcopy. rewrite Hd, Hs.
  destruct (list_eq_dec patch_eq_dec ps ps) as [_|]; [|congruence].
  rewrite (all_some_map f), (all_some_map g); auto. rewrite combine_map2.
  intros E R p Hp. injection E as <-.
  destruct (copy_extents _ _ _ R (f p) (g p)) as [H1 H2].
  - apply in_map_iff. eauto.
  - destruct (nth_error m (f p)) as [d|]; [|congruence]. destruct (nth_error m (g p)) as [s|]; [|discriminate].
    exists d, s. repeat apply conj; auto. simpl in H1. congruence.
Qed.

(** ** Boundary conditions *)
Section Bc.
  Context (conn : list interface) (G : geometry conn).

  Lemma edge_bc_ok outside transition e b : bc_at conn outside transition e b ->
    edge_bc conn outside transition e = Some b.
  Proof.
    intros [[H ->]|[e' [H ->]]]; unfold edge_bc; rewrite (equivalent_spec _ G _ _ H); auto.
  Qed.
  Lemma edge_bc_ex outside transition e : used_edge conn e -> exists b, bc_at conn outside transition e b.
  Proof.
    intros H. destruct (used_glued _ e H) as [[e'|] Hs].
    - exists transition; right; eauto.
    - exists outside; left; auto.
  Qed.
  Lemma bc_at_fun outside transition e b b' : bc_at conn outside transition e b ->
    bc_at conn outside transition e b' -> b = b'.
  Proof. intros H H'. apply edge_bc_ok in H, H'. congruence. Qed.

  Lemma builder_type_ex transition d p : described conn d p ->
    exists t, is_type conn transition d p t.
  Proof.
    intros [H1 H2]. destruct (edge_bc_ex (a_lower d) transition _ H1) as [lo Hlo].
    destruct (edge_bc_ex (a_upper d) transition _ H2) as [up Hup].
    exists (BType (a_bs d p) (a_grid d p) lo up). unfold is_type; simpl. auto.
  Qed.
  Lemma builder_type_ok transition d p t : is_type conn transition d p t ->
    builder_type conn transition d p = Some t.
  Proof.
    intros (H1 & H2 & H3 & H4). unfold builder_type.
    rewrite (edge_bc_ok _ _ _ _ H3), (edge_bc_ok _ _ _ _ H4), <- H1, <- H2. now destruct t.
  Qed.
  Lemma builder_type2_ok transition d1 d2 p t1 t2 : is_type conn transition d1 p t1 ->
    is_type conn transition d2 p t2 -> builder_type2 conn transition d1 d2 p = Some (t1, t2).
  Proof.
    intros (H1 & H2 & H3 & H4) (H1' & H2' & H3' & H4'). unfold builder_type2.
    rewrite (edge_bc_ok _ _ _ _ H3), (edge_bc_ok _ _ _ _ H4), (edge_bc_ok _ _ _ _ H3'),
      (edge_bc_ok _ _ _ _ H4'), <- H1, <- H2, <- H1', <- H2'. now destruct t1, t2.
  Qed.
End Bc.

Lemma find_none e l : ~ used_edge l e -> find_interface e l = None.
Proof.
  induction l as [|i l IH]; intros H; simpl; auto.
  destruct (side_eq_dec (i_edge1 i) (Some e)) as [E|].
  - exfalso; apply H. exists i. split; [left; auto|left; auto].
  - destruct (side_eq_dec (i_edge2 i) (Some e)) as [E|].
    + exfalso; apply H. exists i. split; [left; auto|right; auto].
    + apply IH. intros [j [Hj Ht]]. apply H. exists j. split; [right; auto|auto].
Qed.
Lemma builder_type_none conn transition d p : ~ described conn d p ->
  builder_type conn transition d p = None.
Proof.
  intros H. unfold builder_type, edge_bc, equivalent_edge.
  destruct (find_interface (Edge p (a_grid d p) FRONT) conn) eqn:E1; auto.
  destruct (find_interface (Edge p (a_grid d p) BACK) conn) eqn:E2.
  2:{ destruct (other_edge i _) as [[]|]; auto. }
  assert (F : forall e i, find_interface e conn = Some i -> used_edge conn e).
  { clear. induction conn as [|j l IH]; simpl; intros e i H; [discriminate|].
    destruct (side_eq_dec (i_edge1 j) (Some e)), (side_eq_dec (i_edge2 j) (Some e)); try discriminate.
    - exists j. split; [left; auto|left; auto].
    - exists j. split; [left; auto|right; auto].
    - destruct (IH _ _ H) as [k [Hk Ht]]. exists k. split; [right; auto|auto]. }
  exfalso. apply H. split; eapply F; eauto.
Qed.

(** ** Runs *)
Definition the_call {B} (builder : patch -> B) (s v : patch -> nat) (ds : list (option (patch -> nat))) (p : patch)
  : call B := Call (builder p) (s p) (v p) (map (option_map (fun d => d p)) ds).

Lemma load_opts_iff {A} (m : mem A) p ds dvals :
  load_opts m (map (option_map (fun d => d p)) ds) = Ok dvals <-> Forall2 (contents m p) ds dvals.
Proof.
  revert dvals; induction ds as [|d ds IH]; intros dvals; simpl.
  - split; intros H; [injection H as <-; constructor | now inversion H].
  - split.
    + intros H. destruct d as [f|]; simpl in H.
      * destruct (load m (f p)) as [c| | |] eqn:E; try discriminate. simpl in H.
        destruct (load_opts m _) as [cs| | |] eqn:E'; try discriminate. simpl in H. injection H as <-.
        constructor; [apply load_ok, E|]. now apply IH.
      * destruct (load_opts m _) as [cs| | |] eqn:E'; try discriminate. simpl in H. injection H as <-.
        constructor; [simpl; auto|]. now apply IH.
    + intros H. inversion H as [|? c ? cs Hc Hcs]; subst. apply IH in Hcs.
      destruct d as [f|], c as [c|]; simpl in *; try contradiction.
      * apply load_ok in Hc. rewrite Hc. simpl. now rewrite Hcs.
      * now rewrite Hcs.
Qed.

Lemma in_reads_v v ds : In v (reads v ds). Proof. left; auto. Qed.
Lemma in_reads_d v ds f : In (Some f) ds -> In f (reads v ds).
Proof. intros H. right. apply in_flat_map. exists (Some f). split; auto. left; auto. Qed.

Lemma inputs_frame {A} (m m' : mem A) p v ds vals dvals :
  (forall r, In r (reads v ds) -> nth_error m' (r p) = nth_error m (r p)) ->
  inputs m p v ds vals dvals -> inputs m' p v ds vals dvals.
Proof.
  intros H [H1 H2]. split.
  - rewrite H; auto. apply in_reads_v.
  - assert (Hd : forall f, In (Some f) ds -> nth_error m' (f p) = nth_error m (f p))
      by (intros f Hf; apply H, in_reads_d; auto).
    clear H H1. induction H2 as [|d c ds cs Hc _ IH]; constructor.
    + destruct d as [f|], c as [c|]; simpl in *; auto. rewrite Hd; auto.
    + apply IH. intros f Hf. apply Hd; right; auto.
Qed.

Section Run.
  Context {A B : Type} (solve : B -> list A -> list (option (list A)) -> res (list A)).
  Context (builder : patch -> B) (s v : patch -> nat) (ds : list (option (patch -> nat))).

  Lemma run_built ps : NoDup ps -> writes_apart ps s (reads v ds) -> forall m m',
    run_calls solve (map (the_call builder s v ds) ps) m = Ok m' -> built solve ps builder s v ds m m'.
  Proof.
    induction ps as [|p ps IH]; intros ND [D Dj] m m' H; simpl in H.
    - injection H as <-. constructor; [intros p []|auto].
    - inversion ND as [|? ? Hp ND']; subst.
      unfold run_call in H. simpl in H.
      destruct (load m (v p)) as [vals| | |] eqn:Ev; try discriminate. simpl in H.
      destruct (load_opts m _) as [dvals| | |] eqn:Ed; try discriminate. simpl in H.
      destruct (solve (builder p) vals dvals) as [out| | |] eqn:Es; try discriminate. simpl in H.
      destruct (store m (s p) out) as [m1| | |] eqn:Em; try discriminate. simpl in H.
      apply load_ok in Ev. apply load_opts_iff in Ed. destruct (store_inv _ _ _ _ Em) as [S1 S2].
      assert (W : writes_apart ps s (reads v ds)).
      { split; [intros a b Ha Hb; apply D; right; auto|].
        intros a b r Ha Hb Hr; apply Dj; auto; right; auto. }
      destruct (IH ND' W _ _ H) as [B1 B2]. constructor.
      + intros q [<-|Hq].
        * exists vals, dvals, out. split; [split; auto|]. split; auto. rewrite B2, S1; auto.
          intros q Hq E. apply D in E; simpl; auto. subst; contradiction.
        * destruct (B1 q Hq) as (vals' & dvals' & out' & I & E1 & E2). exists vals', dvals', out'.
          split; auto. eapply inputs_frame; [|exact I]. intros r Hr. symmetry. apply S2.
          intros E. apply (Dj p q r); simpl; auto.
      + intros h Hh. rewrite B2, S2; auto; intros; apply Hh; simpl; auto.
  Qed.

  Lemma run_total ps : NoDup ps -> writes_apart ps s (reads v ds) -> forall m,
    (forall p, In p ps -> nth_error m (s p) <> None /\ exists vals dvals out,
       inputs m p v ds vals dvals /\ solve (builder p) vals dvals = Ok out) ->
    exists m', run_calls solve (map (the_call builder s v ds) ps) m = Ok m'.
  Proof.
    induction ps as [|p ps IH]; intros ND [D Dj] m H; simpl; [eauto|].
    inversion ND as [|? ? Hp ND']; subst.
    destruct (H p (or_introl eq_refl)) as (Hs & vals & dvals & out & [I1 I2] & E).
    unfold run_call. simpl. apply load_ok in I1. rewrite I1. simpl. apply load_opts_iff in I2. rewrite I2. simpl.
    rewrite E. simpl. destruct (nth_error m (s p)) as [c|] eqn:Ec; [|congruence].
    destruct (store_ok m (s p) out c Ec) as [m1 Em]. rewrite Em. simpl.
    destruct (store_inv _ _ _ _ Em) as [S1 S2].
    apply IH; auto.
    - split; [intros a b Ha Hb; apply D; right; auto|].
      intros a b r Ha Hb Hr; apply Dj; auto; right; auto.
    - intros q Hq. destruct (H q (or_intror Hq)) as (Hs' & vals' & dvals' & out' & I' & E').
      split.
      + rewrite S2; auto. intros E0. apply D in E0; simpl; auto. subst; contradiction.
      + exists vals', dvals', out'. split; auto. eapply inputs_frame; [|exact I'].
        intros r Hr. apply S2. intros E0. apply (Dj p q r); simpl; auto.
  Qed.

  (** the same run fails unless every builder accepts *)
  Lemma run_needs ps : NoDup ps -> writes_apart ps s (reads v ds) -> forall m m',
    run_calls solve (map (the_call builder s v ds) ps) m = Ok m' ->
    forall p, In p ps -> exists vals dvals out, inputs m p v ds vals dvals /\ solve (builder p) vals dvals = Ok out.
  Proof.
    intros ND W m m' H p Hp. destruct (run_built ps ND W m m' H) as [B1 _].
    destruct (B1 p Hp) as (vals & dvals & out & I & E & _). eauto.
  Qed.
End Run.

Lemma get_derivs_ok ps p (os : list (option (multipatch nat))) ds : In p ps ->
  Forall2 (fun o d => holds_opt o ps d) os ds ->
  all_some (map (get_deriv_value p) os) = Some (map (option_map (fun d => d p)) ds).
Proof.
  intros Hp H. induction H as [|o d os ds Ho _ IH]; simpl; auto.
  destruct o as [mo|], d as [f|]; simpl in *; try contradiction.
  - destruct Ho as [_ Hf]. rewrite (Hf p Hp), IH. auto.
  - now rewrite IH.
Qed.

Section Build.
  Context {A B : Type} (conn : list interface) (G : geometry conn) (transition : bound).
  Context (ps : list patch) (ND : NoDup ps) (builder : patch -> B) (s v : patch -> nat).
  Context (splines values : multipatch nat) (Hs : holds splines ps s) (Hv : holds values ps v).

  Lemma build1_calls d (dmin dmax : option (patch -> nat)) omin omax :
    (forall p, In p ps -> described conn d p) -> distinct_on (a_bs d) ps ->
    holds_opt omin ps dmin -> holds_opt omax ps dmax ->
    exists bs, builders1 conn transition d ps (map builder ps) = Some bs /\
      build1 conn transition d ps bs splines values omin omax
      = Some (map (the_call builder s v [dmin; dmax]) ps).
  Proof.
    intros Hd D H1 H2.
    assert (TT : exists t : patch -> btype, forall p, In p ps -> builder_type conn transition d p = Some (t p)).
    { exists (fun p => match builder_type conn transition d p with Some t => t | None => BType 0 0 GREVILLE GREVILLE end).
      intros p Hp. destruct (builder_type_ex conn transition d p (Hd p Hp)) as [t Ht].
      now rewrite (builder_type_ok conn G _ _ _ _ Ht). }
    destruct TT as [t Ht]. unfold builders1. rewrite (all_some_map t); auto.
    rewrite !map_length, Nat.eqb_refl. eexists; split; [reflexivity|].
    unfold build1. apply all_some_map. intros p Hp. rewrite (Ht p Hp), combine_map2.
    rewrite std_get_distinct; auto.
    - unfold one_call. destruct Hs as [_ Es], Hv as [_ Ev]. rewrite (Es p Hp), (Ev p Hp).
      rewrite (get_derivs_ok ps p [omin; omax] [dmin; dmax]); auto.
    - intros p0 q Hp0 Hq E. apply D; auto.
      destruct (builder_type_ex conn transition d p0 (Hd p0 Hp0)) as [t0 Ht0].
      destruct (builder_type_ex conn transition d q (Hd q Hq)) as [t1 Ht1].
      pose proof (builder_type_ok conn G _ _ _ _ Ht0) as E0. pose proof (builder_type_ok conn G _ _ _ _ Ht1) as E1.
      rewrite (Ht p0 Hp0) in E0. rewrite (Ht q Hq) in E1. injection E0 as <-. injection E1 as <-.
      destruct Ht0 as [<- _], Ht1 as [<- _]. congruence.
  Qed.

  Lemma build2_calls d1 d2 (ds : list (option (patch -> nat))) o1 o2 o3 o4 o5 o6 o7 o8 :
    (forall p, In p ps -> described conn d1 p /\ described conn d2 p) -> distinct_on (a_bs d1) ps ->
    Forall2 (fun o d => holds_opt o ps d) [o1; o2; o3; o4; o5; o6; o7; o8] ds ->
    exists bs, builders2 conn transition d1 d2 ps (map builder ps) = Some bs /\
      build2 conn transition d1 d2 ps bs splines values o1 o2 o3 o4 o5 o6 o7 o8
      = Some (map (the_call builder s v ds) ps).
  Proof.
    intros Hd D Hds.
    assert (TT : exists t : patch -> btype * btype, forall p, In p ps ->
      builder_type2 conn transition d1 d2 p = Some (t p) /\ b_bs (fst (t p)) = a_bs d1 p).
    { exists (fun p => match builder_type2 conn transition d1 d2 p with
               | Some t => t | None => (BType 0 0 GREVILLE GREVILLE, BType 0 0 GREVILLE GREVILLE) end).
      intros p Hp. destruct (Hd p Hp) as [Hd1 Hd2].
      destruct (builder_type_ex conn transition d1 p Hd1) as [t1 Ht1].
      destruct (builder_type_ex conn transition d2 p Hd2) as [t2 Ht2].
      rewrite (builder_type2_ok conn G _ _ _ _ _ _ Ht1 Ht2). split; auto. simpl. apply Ht1. }
    destruct TT as [t Ht]. unfold builders2. rewrite (all_some_map t); [|intros; now apply Ht].
    rewrite !map_length, Nat.eqb_refl. eexists; split; [reflexivity|].
    unfold build2. apply all_some_map. intros p Hp. destruct (Ht p Hp) as [Et _]. rewrite Et, combine_map2.
    rewrite std_get_distinct; auto.
    - unfold one_call. destruct Hs as [_ Es], Hv as [_ Ev]. rewrite (Es p Hp), (Ev p Hp).
      rewrite (get_derivs_ok ps p _ ds Hp Hds). auto.
    - intros p0 q Hp0 Hq E. apply D; auto.
      destruct (Ht p0 Hp0) as [_ <-], (Ht q Hq) as [_ <-]. congruence.
  Qed.
End Build.

(** ** C123, C124 *)
Theorem multipatch_build1 {A B} (solve : B -> list A -> list (option (list A)) -> res (list A))
    conn transition d ps (builder : patch -> B) s v splines values dmin dmax omin omax :
  geometry conn -> NoDup ps -> (forall p, In p ps -> described conn d p) -> distinct_on (a_bs d) ps ->
  holds splines ps s -> holds values ps v -> holds_opt omin ps dmin -> holds_opt omax ps dmax ->
  writes_apart ps s (reads v [dmin; dmax]) ->
  exists bs calls, builders1 conn transition d ps (map builder ps) = Some bs /\
    build1 conn transition d ps bs splines values omin omax = Some calls /\
    forall m : mem A,
      (forall m', run_calls solve calls m = Ok m' -> built solve ps builder s v [dmin; dmax] m m') /\
      ((forall p, In p ps -> nth_error m (s p) <> None /\ exists vals dvals out,
          inputs m p v [dmin; dmax] vals dvals /\ solve (builder p) vals dvals = Ok out) ->
       exists m', run_calls solve calls m = Ok m').
Proof.
  intros G ND Hd D Hs Hv H1 H2 W.
  destruct (build1_calls (B := B) conn G transition ps ND builder s v splines values Hs Hv d dmin dmax omin omax
              Hd D H1 H2) as (bs & Eb & Ec).
  exists bs. eexists. split; [exact Eb|]. split; [exact Ec|]. intros m. split.
  - intros m'. now apply run_built.
  - now apply run_total.
Qed.

Theorem multipatch_build2 {A B} (solve : B -> list A -> list (option (list A)) -> res (list A))
    conn transition d1 d2 ps (builder : patch -> B) s v splines values
    (ds : list (option (patch -> nat))) o1 o2 o3 o4 o5 o6 o7 o8 :
  geometry conn -> NoDup ps -> (forall p, In p ps -> described conn d1 p /\ described conn d2 p) ->
  distinct_on (a_bs d1) ps -> holds splines ps s -> holds values ps v ->
  Forall2 (fun o d => holds_opt o ps d) [o1; o2; o3; o4; o5; o6; o7; o8] ds ->
  writes_apart ps s (reads v ds) ->
  exists bs calls, builders2 conn transition d1 d2 ps (map builder ps) = Some bs /\
    build2 conn transition d1 d2 ps bs splines values o1 o2 o3 o4 o5 o6 o7 o8 = Some calls /\
    forall m : mem A,
      (forall m', run_calls solve calls m = Ok m' -> built solve ps builder s v ds m m') /\
      ((forall p, In p ps -> nth_error m (s p) <> None /\ exists vals dvals out,
          inputs m p v ds vals dvals /\ solve (builder p) vals dvals = Ok out) ->
       exists m', run_calls solve calls m = Ok m').
Proof.
  intros G ND Hd D Hs Hv H2 W.
  destruct (build2_calls (B := B) conn G transition ps ND builder s v splines values Hs Hv d1 d2 ds
              o1 o2 o3 o4 o5 o6 o7 o8 Hd D H2) as (bs & Eb & Ec).
  exists bs. eexists. split; [exact Eb|]. split; [exact Ec|]. intros m. split.
  - intros m'. now apply run_built.
  - now apply run_total.
Qed.

(** the types of the builders *)
Lemma builder_type_spec conn transition d p : geometry conn ->
  (described conn d p -> exists t, builder_type conn transition d p = Some t /\ is_type conn transition d p t) /\
  (~ described conn d p -> builder_type conn transition d p = None).
Proof.
  intros G. split.
  - intros H. destruct (builder_type_ex conn transition d p H) as [t Ht]. exists t. split; auto.
    now apply builder_type_ok.
  - apply builder_type_none.
Qed.
Lemma builder_type2_spec conn transition d1 d2 p : geometry conn -> described conn d1 p -> described conn d2 p ->
  exists t1 t2, builder_type2 conn transition d1 d2 p = Some (t1, t2) /\
    is_type conn transition d1 p t1 /\ is_type conn transition d2 p t2.
Proof.
  intros G H1 H2. destruct (builder_type_ex conn transition d1 p H1) as [t1 Ht1].
  destruct (builder_type_ex conn transition d2 p H2) as [t2 Ht2]. exists t1, t2. split; auto.
  now apply builder_type2_ok.
Qed.

(** with DDC's rule on derivatives *)
Theorem build1_defined {A} (interp : btype -> list A -> list (option (list A)) -> list A)
    conn transition d ps (t : patch -> btype) s v splines values dmin dmax omin omax :
  geometry conn -> NoDup ps -> (forall p, In p ps -> described conn d p) -> distinct_on (a_bs d) ps ->
  (forall p, In p ps -> is_type conn transition d p (t p)) ->
  holds splines ps s -> holds values ps v -> holds_opt omin ps dmin -> holds_opt omax ps dmax ->
  writes_apart ps s (reads v [dmin; dmax]) ->
  exists bs calls, builders1 conn transition d ps (map t ps) = Some bs /\
    build1 conn transition d ps bs splines values omin omax = Some calls /\
    forall m : mem A,
      (forall p, In p ps -> nth_error m (s p) <> None /\ exists vals dvals, inputs m p v [dmin; dmax] vals dvals) ->
      ((exists m', run_calls (ddc_build interp) calls m = Ok m') <->
       forall p, In p ps ->
         (b_lo (t p) = HERMITE <-> exists x r, contents m p dmin (Some (x :: r))) /\
         (b_up (t p) = HERMITE <-> exists x r, contents m p dmax (Some (x :: r)))).
Proof.
  intros G ND Hd D Ht Hs Hv H1 H2 W.
  destruct (build1_calls (B := btype) conn G transition ps ND t s v splines values Hs Hv d dmin dmax omin omax
              Hd D H1 H2) as (bs & Eb & Ec).
  exists bs. eexists. split; [exact Eb|]. split; [exact Ec|]. intros m Hm.
  assert (GV : forall p (x : option (patch -> nat)) c b, contents m p x c ->
     (Bool.eqb (is_hermite b) (given c) = true <->
      (b = HERMITE <-> exists y r, contents m p x (Some (y :: r))))).
  { intros p x c b Hc. rewrite Bool.eqb_true_iff.
    assert (Eg : given c = true <-> exists y r, contents m p x (Some (y :: r))).
    { destruct x as [f|], c as [[|y r]|]; simpl in Hc |- *; try contradiction.
      - split; [discriminate|]. intros (y & r & H). congruence.
      - split; eauto.
      - split; [discriminate|]. intros (y & r & []). }
    rewrite <- Eg. destruct b, (given c); simpl; intuition congruence. }
  split.
  - intros [m' R] p Hp. destruct (run_needs _ _ _ _ _ _ ND W _ _ R p Hp) as (vals & dvals & out & [_ I] & E).
    inversion I as [|? c1 ? cs1 C1 I1]; subst. inversion I1 as [|? c2 ? cs2 C2 I2]; subst.
    inversion I2; subst. simpl in E.
    destruct (Bool.eqb (is_hermite (b_lo (t p))) (given c1)) eqn:E1; [|discriminate].
    destruct (Bool.eqb (is_hermite (b_up (t p))) (given c2)) eqn:E2; [|discriminate].
    split; [eapply GV with (c := c1)|eapply GV with (c := c2)]; eauto.
  - intros H. apply run_total; auto. intros p Hp. destruct (Hm p Hp) as (Hsp & vals & dvals & I).
    split; auto. exists vals, dvals. pose proof I as [_ I0].
    inversion I0 as [|? c1 ? cs1 C1 I1]; subst. inversion I1 as [|? c2 ? cs2 C2 I2]; subst.
    inversion I2; subst. destruct (H p Hp) as [HL HU].
    apply (GV p dmin c1 _ C1) in HL. apply (GV p dmax c2 _ C2) in HU.
    eexists. split; eauto. simpl. rewrite HL, HU. reflexivity.
Qed.

(** splines through equal values agree *)
Theorem interface_continuous {A B} (solve : B -> list A -> list (option (list A)) -> res (list A))
    (value : B -> list A -> nat -> A) ps (builder : patch -> B) s v ds (m m' : mem A) :
  (forall b vals dvals out i x, solve b vals dvals = Ok out -> nth_error vals i = Some x -> value b out i = x) ->
  built solve ps builder s v ds m m' ->
  forall p q i j vp vq cp cq x, In p ps -> In q ps ->
    nth_error m (v p) = Some vp -> nth_error m (v q) = Some vq ->
    nth_error vp i = Some x -> nth_error vq j = Some x ->
    nth_error m' (s p) = Some cp -> nth_error m' (s q) = Some cq ->
    value (builder p) cp i = value (builder q) cq j.
Proof.
  intros Hi [B1 _] p q i j vp vq cp cq x Hp Hq Ep Eq Xp Xq Cp Cq.
  destruct (B1 p Hp) as (vals & dvals & out & [I _] & E & O).
  destruct (B1 q Hq) as (vals' & dvals' & out' & [I' _] & E' & O').
  assert (vp = vals) as -> by congruence. assert (vq = vals') as -> by congruence.
  assert (cp = out) as -> by congruence. assert (cq = out') as -> by congruence.
  rewrite (Hi _ _ _ _ _ _ E Xp), (Hi _ _ _ _ _ _ E' Xq). auto.
Qed.
