(** C36: multipatch connectivity queries. *)
From Verif Require Import ConnRanges.

(** ----- example geometries ----- *)
(** patch k has grids 2k (x) and 2k+1 (y) *)
Definition ex_patch (k : nat) : patch := Patch (2 * k) (2 * k + 1) k k.
Definition ex_x k x := Edge (ex_patch k) (2 * k) x.
Definition ex_y k x := Edge (ex_patch k) (2 * k + 1) x.
Definition ex_walls k : list interface :=
  [Interface None (Some (ex_y k FRONT)) true; Interface (Some (ex_y k BACK)) None true].
(** three patches in a row *)
Definition ex_row : list interface :=
  [Interface None (Some (ex_x 0 FRONT)) true; Interface (Some (ex_x 1 FRONT)) (Some (ex_x 0 BACK)) true;
   Interface (Some (ex_x 1 BACK)) (Some (ex_x 2 FRONT)) false; Interface (Some (ex_x 2 BACK)) None true]
  ++ ex_walls 0 ++ ex_walls 1 ++ ex_walls 2.
(** two patches in a ring *)
Definition ex_ring : list interface :=
  [Interface (Some (ex_x 0 BACK)) (Some (ex_x 1 FRONT)) true; Interface (Some (ex_x 1 BACK)) (Some (ex_x 0 FRONT)) true]
  ++ ex_walls 0 ++ ex_walls 1.
(** the same ring, the logical coordinate of the second patch running the other way *)
Definition ex_twisted : list interface :=
  [Interface (Some (ex_x 0 BACK)) (Some (ex_x 1 BACK)) true; Interface (Some (ex_x 1 FRONT)) (Some (ex_x 0 FRONT)) true]
  ++ ex_walls 0 ++ ex_walls 1.

(** decision procedure used for the examples only *)
Definition ex_edges (l : list interface) : list edge :=
  flat_map (fun i => (match i_edge1 i with Some e => [e] | None => [] end) ++
                     (match i_edge2 i with Some e => [e] | None => [] end)) l.
Lemma used_in_ex l e : used_edge l e -> In e (ex_edges l).
Proof.
  intros (i & Hi & Ht). apply in_flat_map. exists i. split; auto. apply in_app_iff.
  destruct Ht as [-> | ->]; [left|right]; now left.
Qed.
Definition has_edge (i : interface) (e : edge) : bool :=
  (if side_eq_dec (i_edge1 i) (Some e) then true else false) || (if side_eq_dec (i_edge2 i) (Some e) then true else false).
Definition on_patch (p : patch) (g : nat) : bool := (g =? p_grid1 p) || (g =? p_grid2 p).
Definition geometry_b (l : list interface) : bool :=
  forallb (fun i => if side_eq_dec (i_edge1 i) (i_edge2 i) then false else true) l &&
  forallb (fun e => on_patch (associated_patch e) (perpendicular_grid e) &&
    negb (p_grid1 (associated_patch e) =? p_grid2 (associated_patch e))) (ex_edges l) &&
  forallb (fun e => forallb (fun e' => if patch_eq_dec (associated_patch e) (associated_patch e') then true else
     negb (on_patch (associated_patch e') (p_grid1 (associated_patch e))) &&
     negb (on_patch (associated_patch e') (p_grid2 (associated_patch e)))) (ex_edges l)) (ex_edges l) &&
  forallb (fun i => forallb (fun j => if interface_eq_dec i j then true else
     forallb (fun e => negb (has_edge i e && has_edge j e)) (ex_edges l)) l) l.
Lemma geometry_b_sound l : geometry_b l = true -> geometry l.
Proof.
  unfold geometry_b. rewrite !andb_true_iff, !forallb_forall. intros [[[H1 H2] H3] H4].
  assert (Hon : forall p g, on_patch p g = true <-> (g = p_grid1 p \/ g = p_grid2 p)).
  { intros. unfold on_patch. rewrite orb_true_iff, !Nat.eqb_eq. tauto. }
  constructor.
  - intros i Hi E. specialize (H1 i Hi). destruct side_eq_dec; [discriminate|auto].
  - intros e He. apply used_in_ex, H2, andb_true_iff in He as [He _]. now apply Hon.
  - intros e He E. apply used_in_ex, H2, andb_true_iff in He as [_ He]. apply negb_true_iff, Nat.eqb_neq in He. auto.
  - intros e e' g He He' Hg Hg'. apply used_in_ex in He, He'. specialize (H3 e He). rewrite forallb_forall in H3.
    specialize (H3 e' He'). destruct patch_eq_dec; auto. apply andb_true_iff in H3 as [A B].
    apply negb_true_iff in A, B. apply Hon in Hg'. destruct Hg as [-> | ->]; congruence.
  - intros i j e Hi Hj Ti Tj. specialize (H4 i Hi). rewrite forallb_forall in H4. specialize (H4 j Hj).
    destruct interface_eq_dec; auto. rewrite forallb_forall in H4.
    assert (He : In e (ex_edges l)) by (apply used_in_ex; exists i; auto). specialize (H4 e He).
    apply negb_true_iff in H4.
    assert (Hh : forall k, touches k e -> has_edge k e = true).
    { intros k [Hk|Hk]; unfold has_edge; rewrite Hk; destruct (side_eq_dec (Some e) (Some e)); try congruence; auto using orb_true_r. }
    rewrite (Hh i Ti), (Hh j Tj) in H4. discriminate.
Qed.
Lemma ex_row_geometry : geometry ex_row. Proof. apply geometry_b_sound. reflexivity. Qed.
Lemma ex_ring_geometry : geometry ex_ring. Proof. apply geometry_b_sound. reflexivity. Qed.
Lemma ex_twisted_geometry : geometry ex_twisted. Proof. apply geometry_b_sound. reflexivity. Qed.
Lemma ex_used l e i : In i l -> touches i e -> used_edge l e.
Proof. intros. exists i; auto. Qed.

(** The interfaces found for a patch are exactly those with an edge on it, each once. *)
Theorem C36_connections : forall l p i, connectivity_accepted l = true ->
  NoDup (get_connections l p) /\
  (In i (get_connections l p) <-> In i l /\ exists e, touches i e /\ associated_patch e = p).
Proof. exact (fun l p i Ha => conj (nodup_connection p l) (connections_spec l p i Ha)). Qed.
Print Assumptions C36_connections.
Example C36_connections_ex : connectivity_accepted ex_row = true /\ length (get_connections ex_row (ex_patch 1)) = 4.
Proof. split; reflexivity. Qed.

(** The interfaces between two patches are exactly those found for both. *)
Theorem C36_find_connections : forall l p q i, connectivity_accepted l = true ->
  NoDup (find_connections l p q) /\
  (In i (find_connections l p q) <-> In i l /\ (exists e, touches i e /\ associated_patch e = p) /\
                                               (exists e, touches i e /\ associated_patch e = q)).
Proof.
  exact (fun l p q i Ha => conj (nodup_intersection interface_eq_dec _ _ (nodup_connection q l))
    (iff_trans (in_intersection interface_eq_dec i _ _)
      (conj (fun H => conj (proj1 (proj1 (connections_spec l p i Ha) (proj1 H)))
                (conj (proj2 (proj1 (connections_spec l p i Ha) (proj1 H))) (proj2 (proj1 (connections_spec l q i Ha) (proj2 H)))))
            (fun H => conj (proj2 (connections_spec l p i Ha) (conj (proj1 H) (proj1 (proj2 H))))
                           (proj2 (connections_spec l q i Ha) (conj (proj1 H) (proj2 (proj2 H)))))))).
Qed.
Print Assumptions C36_find_connections.
Example C36_find_connections_ex : find_connections ex_row (ex_patch 1) (ex_patch 2)
  = [Interface (Some (ex_x 1 BACK)) (Some (ex_x 2 FRONT)) false] /\ length (find_connections ex_ring (ex_patch 0) (ex_patch 1)) = 2.
Proof. split; reflexivity. Qed.

(** A connectivity accepted by the compiler, whose edges are sides of their patches, mentions all four
    edges of each of its patches. *)
Theorem C36_all_edges : forall l, connectivity_accepted l = true -> (forall e, used_edge l e -> proper_edge e) ->
  (forall e e', used_edge l e -> associated_patch e' = associated_patch e -> proper_edge e' -> used_edge l e') /\
  exists ps, all_patches l = Some ps /\ NoDup ps /\ (forall p, In p ps <-> exists e, used_edge l e /\ associated_patch e = p).
Proof. exact accepted_complete. Qed.
Print Assumptions C36_all_edges.
Example C36_all_edges_ex : connectivity_accepted ex_ring = true /\ connectivity_accepted (tl ex_ring) = false /\
  all_patches ex_row = Some [ex_patch 1; ex_patch 2; ex_patch 0] /\ (forall e, used_edge ex_ring e -> proper_edge e).
Proof. split; [|split; [|split]]; try reflexivity. apply ex_ring_geometry. Qed.

(** In a geometry each edge has one interface and one edge (or the outside) on the other side, and the
    queries find them. *)
Theorem C36_edge_queries : forall l e, geometry l -> used_edge l e ->
  (forall i, find_interface e l = Some i <-> In i l /\ touches i e) /\
  (forall s, equivalent_edge e l = Some s <-> glued l e s).
Proof. exact (fun l e G Hu => conj (fun i => find_interface_iff l G e i Hu) (fun s => equivalent_iff l G e s Hu)). Qed.
Print Assumptions C36_edge_queries.
Example C36_edge_queries_ex : geometry ex_row /\ used_edge ex_row (ex_x 2 FRONT) /\
  equivalent_edge (ex_x 2 FRONT) ex_row = Some (Some (ex_x 1 BACK)) /\ equivalent_edge (ex_x 2 BACK) ex_row = Some None.
Proof.
  split; [apply ex_row_geometry|]. split; [|split; reflexivity].
  eapply ex_used; [right; right; left; reflexivity|]. right; reflexivity.
Qed.

(** The grid parallel to an edge is the other grid of its patch. *)
Theorem C36_parallel_grid : forall l e, geometry l -> used_edge l e ->
  (perpendicular_grid e = p_grid1 (associated_patch e) /\ parallel_grid e = p_grid2 (associated_patch e)) \/
  (perpendicular_grid e = p_grid2 (associated_patch e) /\ parallel_grid e = p_grid1 (associated_patch e)).
Proof. exact parallel_grid_spec. Qed.
Print Assumptions C36_parallel_grid.
Example C36_parallel_grid_ex : geometry ex_row /\ used_edge ex_row (ex_x 2 FRONT) /\
  perpendicular_grid (ex_x 2 FRONT) = 4 /\ parallel_grid (ex_x 2 FRONT) = 5.
Proof.
  split; [apply ex_row_geometry|]. split; [|split; reflexivity].
  eapply ex_used; [right; right; left; reflexivity|]. right; reflexivity.
Qed.

(** The index ranges returned along a direction are those of the grids of one line: a maximal chain of
    glued patches, each visited once, containing the requested grid (crossed from FRONT to BACK), and
    visiting exactly the grids connected to it by interfaces.  The type computation terminates with a
    recursion depth of the number of edges plus two. *)
Theorem C36_ranges_along_direction : forall l es fuel e, geometry l -> connectivity_accepted l = true ->
  inner_edges l = Some es -> S (length es) < fuel -> used_edge l e ->
  exists ws, NoDup (map perpendicular_grid ws) /\ line l ws /\
    In (Edge (associated_patch e) (perpendicular_grid e) BACK) ws /\ (open_line l ws \/ closed_line l ws) /\
    (forall g, In g (map perpendicular_grid ws) <-> connected l (perpendicular_grid e) g) /\
    forall V (rs : list (list nat * (nat -> V))) range, NoDup (map fst rs) ->
      (forall g, In g (map perpendicular_grid ws) -> provides rs range g) ->
      get_all_idx_ranges_along_direction fuel l (perpendicular_grid e) rs
      = Some (map (fun w => range (perpendicular_grid w)) ws).
Proof. exact (fun l es fuel e G A => ranges_along l G A es fuel e). Qed.
Print Assumptions C36_ranges_along_direction.
Example C36_ranges_along_direction_ex : geometry ex_row /\ connectivity_accepted ex_row = true /\
  used_edge ex_row (ex_x 1 FRONT) /\
  (let rs := map (fun k => ([2 * k; 2 * k + 1], fun g => (g, 10 + k))) [2; 1; 0] in
   NoDup (map fst rs) /\ (forall g, In g [0; 2; 4] -> provides rs (fun g => (g, 10 + g / 2)) g) /\
   get_all_idx_ranges_along_direction 100 ex_row 2 rs = Some [(0, 10); (2, 11); (4, 12)]) /\
  (let rs := map (fun k => ([2 * k; 2 * k + 1], fun g => (g, 10 + k))) [0; 1] in
   get_all_idx_ranges_along_direction 100 ex_ring 0 rs = Some [(2, 11); (0, 10)]).
Proof.
  split; [apply ex_row_geometry|]. split; [reflexivity|]. split.
  { eapply ex_used; [right; left; reflexivity|]. left; reflexivity. }
  split; [|reflexivity]. cbv zeta. split; [|split; [|reflexivity]].
  - simpl. repeat constructor; simpl; intuition discriminate.
  - intros g [<-|[<-|[<-|[]]]].
    + exists [0; 1]. eexists. split; [right; right; left; reflexivity|]. simpl. intuition; subst; auto; simpl in *; intuition discriminate.
    + exists [2; 3]. eexists. split; [right; left; reflexivity|]. simpl. intuition; subst; auto; simpl in *; intuition discriminate.
    + exists [4; 5]. eexists. split; [left; reflexivity|]. simpl. intuition; subst; auto; simpl in *; intuition discriminate.
Qed.

(** Two ranges of the same type cannot be told apart: no result (the C++ is ill-formed) rather than one
    of the two. *)
Theorem C36_ambiguous_ranges : forall V (r1 r2 r3 : list (list nat * (nat -> V))) t v v' g,
  (forall t', In t' (map fst (r1 ++ (t, v) :: r2 ++ (t, v') :: r3)) -> In g t' -> t' = t) ->
  get_idx_range g (r1 ++ (t, v) :: r2 ++ (t, v') :: r3) = None.
Proof. exact @get_idx_range_twice. Qed.
Print Assumptions C36_ambiguous_ranges.
Example C36_ambiguous_ranges_ex : forall t', In t' (map fst ([([0; 1], fun g => g)] ++ ([2; 3], fun g => g) ::
    [] ++ ([2; 3], fun g => g) :: [] : list (list nat * (nat -> nat)))) -> In 3 t' -> t' = [2; 3].
Proof. simpl. intros t' [<-|[<-|[<-|[]]]]; simpl; intuition discriminate. Qed.

(** The interfaces returned along a direction, on a line from outside to outside, or on a closed line whose
    starting patch is left through its BACK edge into a FRONT edge: each interface crossed by the line
    exactly once, in the order of the line; and when every patch is crossed from FRONT to BACK each
    interface is given with its first edge before the second one. *)
Theorem C36_interfaces_along_direction_partial : forall l es fuel e, geometry l -> connectivity_accepted l = true ->
  inner_edges l = Some es -> S (length es) < fuel -> used_edge l e ->
  let back := Edge (associated_patch e) (perpendicular_grid e) BACK in
  exists ws, NoDup (map perpendicular_grid ws) /\ line l ws /\ In back ws /\
    ((open_line l ws /\ exists is js, get_all_interfaces_along_direction fuel l (perpendicular_grid e) = Some is /\
        crossings_open l ws js /\ up_to_flip is js /\ NoDup js /\ (forward_line ws -> in_order_open ws is)) \/
     (closed_line l ws /\ exists m, glued l back (Some m) /\
        (e_ext m = FRONT -> exists is js, get_all_interfaces_along_direction fuel l (perpendicular_grid e) = Some is /\
           crossings_closed l ws js /\ up_to_flip is js /\ NoDup js /\ (forward_line ws -> in_order_closed ws is)) /\
        (e_ext m = BACK -> forall is fuel', get_all_interfaces_along_direction fuel' l (perpendicular_grid e) = Some is ->
           exists i, In i l /\ i <> flip i /\ touches i m /\ In i is /\ In (flip i) is))).
Proof. exact (fun l es fuel e G A => interfaces_along l G A es fuel e). Qed.
Print Assumptions C36_interfaces_along_direction_partial.
Example C36_interfaces_along_direction_ex : used_edge ex_ring (ex_x 0 BACK) /\ connectivity_accepted ex_ring = true /\
  get_all_interfaces_along_direction 100 ex_row 2
  = Some [Interface None (Some (ex_x 0 FRONT)) true; Interface (Some (ex_x 0 BACK)) (Some (ex_x 1 FRONT)) true;
          Interface (Some (ex_x 1 BACK)) (Some (ex_x 2 FRONT)) false; Interface (Some (ex_x 2 BACK)) None true] /\
  get_all_interfaces_along_direction 100 ex_ring 0
  = Some [Interface (Some (ex_x 0 BACK)) (Some (ex_x 1 FRONT)) true; Interface (Some (ex_x 1 BACK)) (Some (ex_x 0 FRONT)) true].
Proof.
  split; [|repeat split; reflexivity]. eapply ex_used; [left; reflexivity|]. left; reflexivity.
Qed.

(** Finding: on a closed line whose starting patch is left into a BACK edge (the neighbour's coordinate runs the other way) the
    interfaces are listed twice, once in each direction. *)
Theorem C36_reversed_ring_refuted : geometry ex_twisted /\ connectivity_accepted ex_twisted = true /\
  closed_line ex_twisted [ex_x 1 FRONT; ex_x 0 BACK] /\ line ex_twisted [ex_x 1 FRONT; ex_x 0 BACK] /\
  exists i1 i2, In i1 ex_twisted /\ In i2 ex_twisted /\ i1 <> i2 /\
    get_all_interfaces_along_direction 100 ex_twisted 0 = Some [flip i1; i2; i1; flip i2].
Proof.
  split; [apply ex_twisted_geometry|]. split; [reflexivity|]. split; [|split].
  - exists (ex_x 1 FRONT), (ex_x 0 BACK). repeat split.
    exists (Interface (Some (ex_x 0 BACK)) (Some (ex_x 1 BACK)) true). split; [now left|]. left; split; reflexivity.
  - intros k w w' H1 H2. destruct k as [|[|k]]; try discriminate. injection H1 as <-. injection H2 as <-.
    exists (Interface (Some (ex_x 1 FRONT)) (Some (ex_x 0 FRONT)) true). split; [right; now left|]. left; split; reflexivity.
  - exists (Interface (Some (ex_x 0 BACK)) (Some (ex_x 1 BACK)) true), (Interface (Some (ex_x 1 FRONT)) (Some (ex_x 0 FRONT)) true).
    split; [now left|]. split; [right; now left|]. split; [discriminate|reflexivity].
Qed.
Print Assumptions C36_reversed_ring_refuted.

(** Finding: on an open line which crosses some patch from BACK to FRONT the listed interfaces are not chained: here
    the first patch (number 1) is entered from the outside by the first interface, but the second listed interface starts with its
    other edge on patch 0. *)
Definition ex_reversed_row : list interface :=
  [Interface (Some (ex_x 1 BACK)) None true; Interface (Some (ex_x 0 FRONT)) (Some (ex_x 1 FRONT)) true;
   Interface (Some (ex_x 0 BACK)) None true] ++ ex_walls 0 ++ ex_walls 1.
Theorem C36_reversed_row_refuted : geometry ex_reversed_row /\ connectivity_accepted ex_reversed_row = true /\ get_all_interfaces_along_direction 100 ex_reversed_row 0
  = Some [Interface (Some (ex_x 1 BACK)) None true; Interface (Some (ex_x 1 FRONT)) (Some (ex_x 0 FRONT)) true;
          Interface (Some (ex_x 0 BACK)) None true].
Proof. split; [apply geometry_b_sound; reflexivity|]. split; reflexivity. Qed.
Print Assumptions C36_reversed_row_refuted.

(** Finding: a connectivity in which an edge belongs to two interfaces is accepted, and the edge
    relation is then not symmetric. *)
Definition ex_double : list interface :=
  [Interface (Some (ex_x 0 BACK)) (Some (ex_x 1 FRONT)) true; Interface (Some (ex_x 2 BACK)) (Some (ex_x 1 FRONT)) true;
   Interface None (Some (ex_x 0 FRONT)) true; Interface None (Some (ex_x 2 FRONT)) true; Interface (Some (ex_x 1 BACK)) None true]
  ++ ex_walls 0 ++ ex_walls 1 ++ ex_walls 2.
Theorem C36_double_edge_refuted : connectivity_accepted ex_double = true /\ equivalent_edge (ex_x 2 BACK) ex_double = Some (Some (ex_x 1 FRONT)) /\ equivalent_edge (ex_x 1 FRONT) ex_double = Some (Some (ex_x 0 BACK)).
Proof. repeat split; reflexivity. Qed.
Print Assumptions C36_double_edge_refuted.
