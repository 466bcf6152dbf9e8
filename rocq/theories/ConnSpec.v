(** Specification vocabulary of the multipatch connectivity (C36): edges, interfaces and lines, without
    the search algorithms. *)
From Verif Require Export ConnModel.

Definition touches (i : interface) (e : edge) : Prop := i_edge1 i = Some e \/ i_edge2 i = Some e.
Definition flip (i : interface) : interface := Interface (i_edge2 i) (i_edge1 i) (i_agree i).

(** the end of the same grid line on the other side of the patch *)
Definition opposite (e : edge) : edge :=
  Edge (associated_patch e) (perpendicular_grid e) (match e_ext e with FRONT => BACK | BACK => FRONT end).

(** the edge is one of the four sides of its patch *)
Definition proper_edge (e : edge) : Prop :=
  perpendicular_grid e = p_grid1 (associated_patch e) \/ perpendicular_grid e = p_grid2 (associated_patch e).

Definition used_edge (l : list interface) (e : edge) : Prop := exists i, In i l /\ touches i e.

(** a multipatch geometry: every interface joins two different sides which belong to a patch (or one
    side and the outside), a patch has two different grids, no grid belongs to two patches, and
    no edge belongs to two interfaces *)
Record geometry (l : list interface) : Prop := {
  geo_sides : forall i, In i l -> i_edge1 i <> i_edge2 i;
  geo_proper : forall e, used_edge l e -> proper_edge e;
  geo_grids : forall e, used_edge l e -> p_grid1 (associated_patch e) <> p_grid2 (associated_patch e);
  geo_patch : forall e e' g, used_edge l e -> used_edge l e' ->
    (g = p_grid1 (associated_patch e) \/ g = p_grid2 (associated_patch e)) ->
    (g = p_grid1 (associated_patch e') \/ g = p_grid2 (associated_patch e')) ->
    associated_patch e = associated_patch e';
  geo_once : forall i j e, In i l -> In j l -> touches i e -> touches j e -> i = j
}.

(** what lies on the other side of an edge *)
Definition glued (l : list interface) (e : edge) (s : option edge) : Prop :=
  exists i, In i l /\ ((i_edge1 i = Some e /\ i_edge2 i = s) \/ (i_edge2 i = Some e /\ i_edge1 i = s)).

(** a line through the geometry, given by the edges through which it leaves the successive patches: it
    enters the next patch through the edge glued to the exit and crosses to the opposite edge *)
Definition line (l : list interface) (ws : list edge) : Prop :=
  forall k w w', nth_error ws k = Some w -> nth_error ws (S k) = Some w' ->
    glued l w (Some (opposite w')).

(** it goes on as far as possible: from outside to outside, or all the way round *)
Definition open_line (l : list interface) (ws : list edge) : Prop :=
  exists first last, nth_error ws 0 = Some first /\ nth_error ws (length ws - 1) = Some last /\
    glued l (opposite first) None /\ glued l last None.
Definition closed_line (l : list interface) (ws : list edge) : Prop :=
  exists first last, nth_error ws 0 = Some first /\ nth_error ws (length ws - 1) = Some last /\
    glued l last (Some (opposite first)).

(** two grids joined by an interface across their ends *)
Definition joined (l : list interface) (g g' : nat) : Prop :=
  exists e e', glued l e (Some e') /\ perpendicular_grid e = g /\ perpendicular_grid e' = g'.
Definition connected (l : list interface) : nat -> nat -> Prop := clos_refl_trans nat (joined l).

(** the interfaces [js] crossed, in order, by a line *)
Definition crossings (l : list interface) (ws : list edge) (js : list interface) (next : nat -> nat) : Prop :=
  (forall j, In j js -> In j l) /\
  forall k w, nth_error ws k = Some w -> exists a b, nth_error js k = Some a /\ nth_error js (next k) = Some b /\
    touches a (opposite w) /\ touches b w.
Definition crossings_open l ws js : Prop :=
  length js = S (length ws) /\ crossings l ws js S.
Definition crossings_closed l ws js : Prop :=
  length js = length ws /\ crossings l ws js (fun k => if S k =? length ws then 0 else S k).

(** the same interfaces, the two edges possibly exchanged *)
Definition up_to_flip : list interface -> list interface -> Prop := Forall2 (fun i j => i = j \/ i = flip j).

(** the first edge of each listed interface is where the line comes from, the second where it goes to *)
Definition in_order_open (ws : list edge) (is : list interface) : Prop :=
  forall k i, nth_error is k = Some i ->
    i_edge1 i = match k with 0 => None | S k => nth_error ws k end /\
    i_edge2 i = option_map opposite (nth_error ws k).
Definition in_order_closed (ws : list edge) (is : list interface) : Prop :=
  forall k i, nth_error is k = Some i ->
    i_edge1 i = nth_error ws (match k with 0 => length ws - 1 | S k => k end) /\
    i_edge2 i = option_map opposite (nth_error ws k).

(** the line crosses every patch from FRONT to BACK *)
Definition forward_line (ws : list edge) : Prop := forall w, In w ws -> e_ext w = BACK.

(** a collection of multi-dimensional index ranges (their grids, and the 1D range of each grid) which
    gives [range g] for the grid [g]: exactly one member is defined on [g] *)
Definition provides {V} (rs : list (list nat * (nat -> V))) (range : nat -> V) (g : nat) : Prop :=
  exists t v, In (t, v) rs /\ In g t /\ v g = range g /\
    forall t', In t' (map fst rs) -> In g t' -> t' = t.
