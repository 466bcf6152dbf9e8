(** Multipatch data types and spline builders: concrete cases. *)
From Verif Require Import ConnMain ConnProofs MpbSpec MpbProofs.
Open Scope nat_scope.

(** decision procedure used for the examples only *)
Definition ex_edges (l : list interface) : list edge :=
  flat_map (fun i => (match i_edge1 i with Some e => [e] | None => [] end) ++
                     (match i_edge2 i with Some e => [e] | None => [] end)) l.
Lemma used_in_ex l e : used_edge l e -> In e (ex_edges l).
Proof.
  intros (i & Hi & Ht). apply in_flat_map. exists i. split; auto. apply in_app_iff.
  destruct Ht as [-> | ->]; [left|right]; now left.
Qed.
Definition has_edge (i : interface) (e : edge) : bool :=
  (if side_eq_dec (i_edge1 i) (Some e) then true else false) || (if side_eq_dec (i_edge2 i) (Some e) then true else false).
Definition on_patch (p : patch) (g : nat) : bool := (g =? p_grid1 p) || (g =? p_grid2 p).
Definition geometry_b (l : list interface) : bool :=
  forallb (fun i => if side_eq_dec (i_edge1 i) (i_edge2 i) then false else true) l &&
  forallb (fun e => on_patch (associated_patch e) (perpendicular_grid e) &&
    negb (p_grid1 (associated_patch e) =? p_grid2 (associated_patch e))) (ex_edges l) &&
  forallb (fun e => forallb (fun e' => if patch_eq_dec (associated_patch e) (associated_patch e') then true else
     negb (on_patch (associated_patch e') (p_grid1 (associated_patch e))) &&
     negb (on_patch (associated_patch e') (p_grid2 (associated_patch e)))) (ex_edges l)) (ex_edges l) &&
  forallb (fun i => forallb (fun j => if interface_eq_dec i j then true else
     forallb (fun e => negb (has_edge i e && has_edge j e)) (ex_edges l)) l) l.
Lemma geometry_b_sound l : geometry_b l = true -> geometry l.
Proof.
  unfold geometry_b. rewrite !andb_true_iff, !forallb_forall. intros [[[H1 H2] H3] H4].
  assert (Hon : forall p g, on_patch p g = true <-> (g = p_grid1 p \/ g = p_grid2 p)).
  { intros. unfold on_patch. rewrite orb_true_iff, !Nat.eqb_eq. tauto. }
  constructor.
  - intros i Hi E. specialize (H1 i Hi). destruct side_eq_dec; [discriminate|auto].
  - intros e He. apply used_in_ex, H2, andb_true_iff in He as [He _]. now apply Hon.
  - intros e He E. apply used_in_ex, H2, andb_true_iff in He as [_ He]. apply negb_true_iff, Nat.eqb_neq in He. auto.
  - intros e e' g He He' Hg Hg'. apply used_in_ex in He, He'. specialize (H3 e He). rewrite forallb_forall in H3.
    specialize (H3 e' He'). destruct patch_eq_dec; auto. apply andb_true_iff in H3 as [A B].
    apply negb_true_iff in A, B. apply Hon in Hg'. destruct Hg as [-> | ->]; congruence.
  - intros i j e Hi Hj Ti Tj. specialize (H4 i Hi). rewrite forallb_forall in H4. specialize (H4 j Hj).
    destruct interface_eq_dec; auto. rewrite forallb_forall in H4.
    assert (He : In e (ex_edges l)) by (apply used_in_ex; exists i; auto). specialize (H4 e He).
    apply negb_true_iff in H4.
    assert (Hh : forall k, touches k e -> has_edge k e = true).
    { intros k [Hk|Hk]; unfold has_edge; rewrite Hk; destruct (side_eq_dec (Some e) (Some e)); try congruence; auto using orb_true_r. }
    rewrite (Hh i Ti), (Hh j Tj) in H4. discriminate.
Qed.

Definition p1 := Patch 1 2 11 12.
Definition p2 := Patch 3 4 13 14.
Definition ps12 := [p1; p2].
(** p1 and p2 side by side along their first dimension *)
Definition row := [
  Interface None (Some (Edge p1 1 FRONT)) true;
  Interface (Some (Edge p1 1 BACK)) (Some (Edge p2 3 FRONT)) true;
  Interface (Some (Edge p2 3 BACK)) None true;
  Interface None (Some (Edge p1 2 FRONT)) true; Interface None (Some (Edge p1 2 BACK)) true;
  Interface None (Some (Edge p2 4 FRONT)) true; Interface None (Some (Edge p2 4 BACK)) true].
Lemma row_geometry : geometry row. Proof. apply geometry_b_sound. reflexivity. Qed.

Lemma nodup12 : NoDup ps12.
Proof. repeat constructor; simpl; intros H; repeat (destruct H as [H|H]; [discriminate|]); exact H. Qed.
Lemma distinct12 {V} (f : patch -> V) : f p1 <> f p2 -> distinct_on f ps12.
Proof.
  intros H p q Hp Hq E. destruct Hp as [<-|[<-|[]]], Hq as [<-|[<-|[]]]; auto; exfalso; apply H; auto.
Qed.
Definition num (p : patch) : nat := p_grid1 p.
Definition handle (base : nat) (p : patch) : nat := if patch_eq_dec p p1 then base else S base.
Definition mp12 (base : nat) : multipatch nat := MP num ps12 [(1, base); (3, S base)].
Lemma mp12_holds base : holds (mp12 base) ps12 (handle base).
Proof. split; auto. intros p [<-|[<-|[]]]; reflexivity. Qed.
Lemma num12 : distinct_on num ps12. Proof. apply distinct12. discriminate. Qed.

(** *** C122 *)
Lemma ex_reorder : exists m, convert num [p2; p1] (mp12 5) = Some m /\ mp_get p1 m = Some 5 /\ mp_get p2 m = Some 6.
Proof. eexists. split; [reflexivity|]. split; reflexivity. Qed.
Lemma ex_convert : holds (mp12 5) ps12 (handle 5) /\ NoDup [p2; p1] /\ distinct_on num [p2; p1] /\
  incl [p2; p1] ps12 /\ forall p, In p [p2; p1] -> num p = mp_type (mp12 5) p.
Proof.
  split; [apply mp12_holds|]. split; [repeat constructor; simpl; intros H; repeat (destruct H as [H|H]; [discriminate|]); exact H|].
  split; [intros p q Hp Hq; apply num12; simpl in *; tauto|]. split; [intros p Hp; simpl in *; tauto|]. auto.
Qed.
Lemma ex_new : NoDup ps12 /\ distinct_on num ps12.
Proof. split; [exact nodup12|exact num12]. Qed.
Lemma ex_get : exists m, from_args (fun _ => 7) ps12 [(7, 1); (7, 2)] = Some m /\ mp_get p1 m = None.
Proof. eexists. split; reflexivity. Qed.
Lemma same_type : exists (T : patch -> nat) ps m, NoDup ps /\ from_args T ps [(7, 1); (7, 2)] = Some m /\
  forall p, In p ps -> mp_get p m = None.
Proof.
  exists (fun _ => 7), ps12. eexists. split; [exact nodup12|]. split; [reflexivity|].
  intros p _. reflexivity.
Qed.
Lemma ex_temporary : holds (mp12 5) ps12 (handle 5) /\ NoDup ps12 /\ distinct_on num ps12 /\
  forall p, In p ps12 -> num p = mp_type (mp12 5) p.
Proof. split; [apply mp12_holds|]. split; [exact nodup12|]. split; [exact num12|auto]. Qed.
Lemma ex_alloc : exists fm m', new_field_mem 0 num ps12 (mp12 2) [[9]] = Some (fm, m') /\ m' = [[9]; [0; 0]; [0; 0; 0]] /\
  mp_get p1 fm = Some 1 /\ mp_get p2 fm = Some 2.
Proof. eexists. eexists. split; [reflexivity|]. repeat split; reflexivity. Qed.
Lemma ex_deepcopy : match deepcopy (mp12 0) (mp12 2) with
  | Some run => run [[0]; [0; 0]; [1]; [2; 3]] = Ok [[1]; [2; 3]; [1]; [2; 3]]
  | None => False end.
Proof. reflexivity. Qed.
Lemma ex_deepcopy_extents : match deepcopy (mp12 0) (mp12 2) with
  | Some run => run [[0]; [0; 0]; [1]; [2]] = AssertFail
  | None => False end.
Proof. reflexivity. Qed.

(** *** C123, C124 *)
Definition along_x := Along (fun p => p_bs1 p) (fun p => p_grid1 p) HERMITE GREVILLE.
Definition along_y := Along (fun p => p_bs2 p) (fun p => p_grid2 p) PERIODIC PERIODIC.
Lemma described_x : forall p, In p ps12 -> described row along_x p.
Proof.
  intros p [<-|[<-|[]]]; split; unfold used_edge, touches, row; simpl.
  - exists (Interface None (Some (Edge p1 1 FRONT)) true); simpl; auto.
  - exists (Interface (Some (Edge p1 1 BACK)) (Some (Edge p2 3 FRONT)) true); simpl; auto.
  - exists (Interface (Some (Edge p1 1 BACK)) (Some (Edge p2 3 FRONT)) true); simpl; auto.
  - exists (Interface (Some (Edge p2 3 BACK)) None true); simpl; auto.
Qed.
Lemma described_y : forall p, In p ps12 -> described row along_y p.
Proof.
  intros p [<-|[<-|[]]]; split; unfold used_edge, touches, row; simpl.
  - exists (Interface None (Some (Edge p1 2 FRONT)) true); simpl; tauto.
  - exists (Interface None (Some (Edge p1 2 BACK)) true); simpl; tauto.
  - exists (Interface None (Some (Edge p2 4 FRONT)) true); simpl; tauto.
  - exists (Interface None (Some (Edge p2 4 BACK)) true); simpl; tauto.
Qed.
Lemma ex_types : builder_type row HERMITE along_x p1 = Some (BType 11 1 HERMITE HERMITE) /\
  builder_type row GREVILLE along_x p1 = Some (BType 11 1 HERMITE GREVILLE) /\
  builder_type row PERIODIC along_x p2 = Some (BType 13 3 PERIODIC GREVILLE) /\
  builder_type row GREVILLE along_x (Patch 7 8 17 18) = None.
Proof. repeat split; reflexivity. Qed.
Lemma bs12 : distinct_on (a_bs along_x) ps12. Proof. apply distinct12. discriminate. Qed.
Lemma apart12 ds : (forall d, In (Some d) ds -> exists b, 2 <= b /\ d = handle b) ->
  writes_apart ps12 (handle 0) (reads (handle 2) ds).
Proof.
  intros H. split; [apply distinct12; discriminate|].
  assert (E : forall r, In r (reads (handle 2) ds) -> exists b, 2 <= b /\ r = handle b).
  { intros r [<-|Hr]; [exists 2; auto|]. apply in_flat_map in Hr as [[f|] [Hf Hr]]; [|destruct Hr].
    destruct Hr as [<-|[]]. auto. }
  intros p q r Hp Hq Hr. destruct (E r Hr) as (b & Hb & ->). unfold handle.
  destruct (patch_eq_dec p p1), (patch_eq_dec q p1); lia.
Qed.
(** derivatives on the first patch only: the other patch has an empty field *)
Lemma ex_build1 : geometry row /\ NoDup ps12 /\ (forall p, In p ps12 -> described row along_x p) /\
  distinct_on (a_bs along_x) ps12 /\ holds (mp12 0) ps12 (handle 0) /\ holds (mp12 2) ps12 (handle 2) /\
  holds_opt (Some (mp12 4)) ps12 (Some (handle 4)) /\ holds_opt None ps12 None /\
  writes_apart ps12 (handle 0) (reads (handle 2) [Some (handle 4); None]).
Proof.
  split; [exact row_geometry|]. split; [exact nodup12|]. split; [exact described_x|]. split; [exact bs12|].
  split; [apply mp12_holds|]. split; [apply mp12_holds|]. split; [apply mp12_holds|]. split; [exact Logic.I|].
  apply apart12. intros d [E|[E|[]]]; [injection E as <-; exists 4; auto|discriminate].
Qed.
Definition interp0 (b : btype) (vals : list nat) (ds : list (option (list nat))) : list nat :=
  b_bs b :: vals ++ flat_map (fun d => match d with Some c => c | None => [] end) ds.
Definition t12 (p : patch) := if patch_eq_dec p p1 then BType 11 1 HERMITE GREVILLE else BType 13 3 GREVILLE GREVILLE.
Lemma ex_run1 : match builders1 row GREVILLE along_x ps12 (map t12 ps12) with
  | Some bs => match build1 row GREVILLE along_x ps12 bs (mp12 0) (mp12 2) (Some (mp12 4)) None with
     | Some calls =>
         run_calls (ddc_build interp0) calls [[]; []; [1; 2]; [2; 3; 4]; [8]; []]
         = Ok [[11; 1; 2; 8]; [13; 2; 3; 4]; [1; 2]; [2; 3; 4]; [8]; []] /\
         run_calls (ddc_build interp0) calls [[]; []; [1; 2]; [2; 3; 4]; [8]; [9]] = AssertFail
     | None => False end
  | None => False end.
Proof. split; reflexivity. Qed.
Lemma glued_types : forall p, In p ps12 -> is_type row GREVILLE along_x p (t12 p).
Proof.
  intros p Hp. destruct (builder_type_ex row GREVILLE along_x p (described_x p Hp)) as [t Ht].
  pose proof (builder_type_ok row row_geometry _ _ _ _ Ht) as E.
  destruct Hp as [<-|[<-|[]]]; vm_compute in E; injection E as <-; exact Ht.
Qed.
Lemma ex_defined : (forall p, In p ps12 -> is_type row GREVILLE along_x p (t12 p)) /\
  forall p, In p ps12 -> nth_error [[]; []; [1; 2]; [2; 3; 4]; [8]; []] (handle 0 p) <> None /\
    exists vals dvals, inputs [[]; []; [1; 2]; [2; 3; 4]; [8]; []] p (handle 2) [Some (handle 4); None] vals dvals.
Proof.
  split; [exact glued_types|].
  intros p [<-|[<-|[]]]; (split; [discriminate|]); unfold inputs.
  - exists [1; 2], [Some [8]; None]. split; [reflexivity|]. repeat constructor.
  - exists [2; 3; 4], [Some []; None]. split; [reflexivity|]. repeat constructor.
Qed.
Definition ds12 := [Some (handle 4); None; None; None; Some (handle 6); None; None; None].
Lemma ex_build2 : geometry row /\ NoDup ps12 /\
  (forall p, In p ps12 -> described row along_x p /\ described row along_y p) /\
  distinct_on (a_bs along_x) ps12 /\ holds (mp12 0) ps12 (handle 0) /\ holds (mp12 2) ps12 (handle 2) /\
  Forall2 (fun o d => holds_opt o ps12 d)
    [Some (mp12 4); None; None; None; Some (mp12 6); None; None; None] ds12 /\
  writes_apart ps12 (handle 0) (reads (handle 2) ds12).
Proof.
  split; [exact row_geometry|]. split; [exact nodup12|].
  split; [intros p Hp; split; [apply described_x|apply described_y]; auto|]. split; [exact bs12|].
  split; [apply mp12_holds|]. split; [apply mp12_holds|]. split.
  - repeat constructor; apply mp12_holds.
  - apply apart12. intros d Hd. unfold ds12 in Hd. simpl in Hd.
    repeat (destruct Hd as [Hd|Hd]; [try discriminate; injection Hd as <-|]); try contradiction.
    + exists 4; auto. + exists 6; auto with arith.
Qed.
Lemma ex_types2 : builder_type2 row GREVILLE along_x along_y p2
  = Some (BType 13 3 GREVILLE GREVILLE, BType 14 4 PERIODIC PERIODIC).
Proof. reflexivity. Qed.
(** an interpolation: the coefficients are the values *)
Lemma ex_continuous :
  (forall b vals dvals out i x, (fun (_ : nat) (vals : list nat) (_ : list (option (list nat))) => Ok vals) b vals dvals = Ok out ->
     nth_error vals i = Some x -> nth i out 0 = x) /\
  built (fun (_ : nat) vals _ => Ok vals) ps12 num (handle 0) (handle 2) []
    [[]; []; [1; 2]; [2; 3; 4]] [[1; 2]; [2; 3; 4]; [1; 2]; [2; 3; 4]].
Proof.
  split.
  - intros b vals dvals out i x E H. injection E as <-. now apply nth_error_nth.
  - constructor.
    + intros p [<-|[<-|[]]]; unfold inputs.
      * exists [1; 2], [], [1; 2]. repeat constructor.
      * exists [2; 3; 4], [], [2; 3; 4]. repeat constructor.
    + intros h H. destruct h as [|[|h]].
      * exfalso. apply (H p1); [left|]; reflexivity.
      * exfalso. apply (H p2); [right; left|]; reflexivity.
      * reflexivity.
Qed.
