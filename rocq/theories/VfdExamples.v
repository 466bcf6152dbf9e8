(** Vector fields: refuted claims and examples. *)
From Coq Require Import Lia String.
From Verif Require Import VfdSpec VfdProofs VfdMain VfdCopy.
Open Scope nat_scope.

(** Two components whose fields have different index ranges are accepted by the constructor: the index range
    of the vector field is then that of the first one. *)
Lemma mixed_ranges : exists (m : mem) (ts : list tag) (vals : list view) (p : index),
  NoDup ts /\ length vals = length ts /\
  (forall v q, In v vals -> inside (range_of v) q -> exists r, get m v q = Ok r) /\
  inside (idx_range (vector_field_of ts vals)) p /\
  at_index m (vector_field_of ts vals) p = Ub.
Proof.
  exists (fun _ => Val 0%R), [0; 1], [View 0 (right_dims [(0, (0%Z, 3))]); View 10 (right_dims [(0, (0%Z, 2))])], (fun _ => 2%Z).
  split; [repeat constructor; cbn; intuition congruence|]. split; [reflexivity|]. split.
  - intros v q Hv Hq. exists 0%R. unfold get. rewrite (proj2 (in_view_iff v q) Hq). reflexivity.
  - split; [|reflexivity]. intros g f n [X|[]]. injection X as <- <- <-. lia.
Qed.

(** A name given last, without its vector, is not read and nothing is said. *)
Lemma odd_argument : forall file s v n vs, PDI_get_arrays file [Name s; Vec v; Name n] vs = PDI_get_arrays file [Name s; Vec v] vs.
Proof. reflexivity. Qed.
Lemma odd_argument_refuted : ~ (forall file args vs vs', PDI_get_arrays file args vs = Ok vs' ->
  forall s, In (Name s) args -> exists d, data_of file s = Some d).
Proof.
  intros H.
  set (file := {| sizes_of := fun s => if String.eqb s "a_extents" then Some 1 else None;
                  data_of := fun s => if String.eqb s "a" then Some [1%R] else None |}).
  destruct (H file [Name "a"; Vec 0; Name "b"] (fun _ => []) _ eq_refl "b"%string) as (d & E); [right; right; left; reflexivity|].
  discriminate.
Qed.
(** An array missing from the file is not reported: the vector is filled with zeros when its size was read, and
    has an indeterminate size otherwise. *)
Lemma missing_refuted :
  (exists file vs vs', PDI_get_arrays file [Name "a"; Vec 0] vs = Ok vs' /\ data_of file "a" = None /\ vs' 0 = [0; 0]%R) /\
  (exists file vs, PDI_get_arrays file [Name "a"; Vec 0] vs = Ub).
Proof.
  split.
  - exists {| sizes_of := fun _ => Some 2; data_of := fun _ => None |}, (fun _ => []). eexists.
    split; [reflexivity|split; reflexivity].
  - exists {| sizes_of := fun _ => None; data_of := fun _ => None |}, (fun _ => []). reflexivity.
Qed.

(** ** Examples *)
Definition xrg : ranges := [(0, (0%Z, 2)); (1, (3%Z, 2))].
Definition xrg' : ranges := [(0, (5%Z, 2)); (1, (0%Z, 2))].
Definition pt (i j : Z) : index := fun g => if g =? 0 then i else j.
Definition xval (p : index) : list R := [IZR (10 * p 0%nat + p 1%nat); IZR (- p 1%nat)].
Definition xpts : list index := [pt 0 3; pt 0 4; pt 1 3; pt 1 4]%Z.

Example ex_new : exists m next vf, new_vector_field_mem (fun _ => Free) 100 [7; 9] xrg = (m, next, vf) /\
  on_range vf xrg /\ separate vf xrg /\ writable m vf xrg.
Proof.
  destruct (new_vector_field_mem (fun _ => Free) 100 [7; 9] xrg) as [[m next] vf] eqn:E. exists m, next, vf.
  split; [reflexivity|].
  destruct (new_ok (fun _ => Free) 100 [7; 9] xrg m next vf) as (_ & O & S' & W & _); [repeat constructor; cbn; intuition congruence..|exact E|].
  split; [exact O|split; [exact S'|exact W]].
Qed.
Example ex_rw :
  let '(m, next, vf) := new_vector_field_mem (fun _ => Free) 100 [7; 9] xrg in
  match assign_each m vf xval xpts with
  | Ok m' => at_index m' vf (pt 1 3) = Ok [IZR 13; IZR (-3)] /\ at_index m vf (pt 1 3) = Ub /\
             at_index m' vf (pt 2 3) = Ub /\
             match component vf 9 with Ok v => get m' v (pt 0 4) = Ok (IZR (-4)) | _ => False end
  | _ => False
  end.
Proof. repeat split. Qed.
Example ex_slice :
  let '(m, next, vf) := new_vector_field_mem (fun _ => Free) 100 [7; 9] xrg in
  match assign_each m vf xval xpts, vslice vf [(0, 1%Z)], vsub vf [(1, (4%Z, 1))] with
  | Ok m', Ok s, Ok u => at_index m' s (fun _ => 4%Z) = Ok [IZR 14; IZR (-4)] /\ vslice vf [(0, 2%Z)] = Ub /\
             at_index m' u (pt 0 4) = Ok [IZR 4; IZR (-4)] /\ at_index m' u (pt 0 3) = Ub
  | _, _, _ => False
  end.
Proof. repeat split. Qed.
Example ex_slice_hyp : fixed_ok xrg [(0, 1%Z)] /\ ~ fixed_ok xrg [(0, 2%Z)] /\
  sub_range_ok xrg [(1, (4%Z, 1))] /\ ~ sub_range_ok xrg [(1, (4%Z, 2))].
Proof.
  split; [|split; [|split]].
  - intros g f n i [X|[X|[]]]; injection X as <- <- <-; cbn; [intros Y; injection Y as <-; lia|discriminate].
  - intros H. specialize (H 0 0%Z 2 2%Z (or_introl eq_refl) eq_refl). lia.
  - intros g f n f' n' [X|[X|[]]]; injection X as <- <- <-; cbn; [discriminate|intros Y; injection Y as <- <-; lia].
  - intros H. specialize (H 1 3%Z 2 4%Z 2 (or_intror (or_introl eq_refl)) eq_refl). lia.
Qed.
(** copy to a vector field whose ranges start elsewhere *)
Example ex_copy :
  let '(m, next, src) := new_vector_field_mem (fun _ => Free) 100 [7; 9] xrg in
  match assign_each m src xval xpts with
  | Ok m1 => let '(m2, _, dst) := new_vector_field_mem m1 next [7; 9] xrg' in
      match deepcopy m2 dst src with
      | Ok m3 => at_index m3 dst (pt 6 0) = Ok [IZR 13; IZR (-3)] /\ at_index m3 dst (pt 5 1) = Ok [IZR 4; IZR (-4)] /\
                 at_index m3 src (pt 1 3) = Ok [IZR 13; IZR (-3)]
      | _ => False
      end
  | _ => False
  end.
Proof. repeat split. Qed.
Example ex_copy_hyp : same_extents xrg' xrg /\ corresponding xrg' xrg (pt 6 0) (pt 1 3) /\ ~ same_extents xrg [(0, (0%Z, 2))].
Proof. split; [reflexivity|]. split; [repeat constructor|discriminate]. Qed.
Example ex_pdi :
  let file := {| sizes_of := fun s => if String.eqb s "a_extents" then Some 2 else if String.eqb s "b_extents" then Some 1 else None;
                 data_of := fun s => if String.eqb s "a" then Some [1; 2]%R else if String.eqb s "b" then Some [3]%R else None |} in
  complete file ["a"; "b"]%string /\
  match PDI_get_arrays file (alternate [("a"%string, 4); ("b"%string, 2)]) (fun _ => []) with
  | Ok vs => vs 4 = [1; 2]%R /\ vs 2 = [3]%R
  | _ => False
  end.
Proof.
  split; [|split; reflexivity].
  intros s [<-|[<-|[]]]; eexists; split; reflexivity.
Qed.
Example ex_expose :
  let '(_, _, vf) := new_vector_field_mem (fun _ => Free) 100 [7; 9] xrg in
  match expose_vector_field "E" vf ["_x"; "_y"]%string with
  | Ok l => map fst l = ["E_x"; "E_y"]%string
  | _ => False
  end /\ expose_idx_range xrg "r" = [("r_starts"%string, [0; 3]%Z); ("r_extents"%string, [2; 2]%Z)].
Proof. split; reflexivity. Qed.
