(** Curves made of segments: what the cut paths have to be. *)
From Coq Require Import List Arith Bool Permutation Relations.
Import ListNotations.

Section Spec.
(** the two ends of an edge *)
Variable ends : nat -> nat * nat.
Definition meets (e v : nat) : Prop := fst (ends e) = v \/ snd (ends e) = v.
Definition joins (e a b : nat) : Prop := ends e = (a, b) \/ ends e = (b, a).
Definition incident (edges : list nat) (v : nat) : list nat := filter (fun e => Nat.eqb (fst (ends e)) v || Nat.eqb (snd (ends e)) v) edges.

(** The segments of intersection curves in general position: no two are the same, none is a point, and no point has more than two. *)
Definition curves (edges : list nat) : Prop :=
  NoDup edges /\ (forall e, In e edges -> fst (ends e) <> snd (ends e)) /\ (forall v, length (incident edges v) <= 2).

(** The edges s join the points ws, one after the other. *)
Fixpoint chain (ws s : list nat) : Prop :=
  match ws, s with
  | a :: (b :: _) as ws', e :: s' => joins e a b /\ chain ws' s'
  | [_], [] => True
  | _, _ => False
  end.

(** s runs from the end of a curve to the other end, through the points a, ws, b. *)
Definition open_curve (edges s : list nat) (a : nat) (ws : list nat) (b : nat) : Prop :=
  chain (a :: ws ++ [b]) s /\ NoDup (a :: ws ++ [b]) /\ length (incident edges a) = 1 /\ length (incident edges b) = 1.
(** s runs around a closed curve, through the points a, ws and back to a. *)
Definition closed_curve (s : list nat) (a : nat) (ws : list nat) : Prop :=
  chain (a :: ws ++ [a]) s /\ NoDup (a :: ws) /\ ws <> [].

(** Edges of the list that meet in a point; edges connected by such steps. *)
Definition touch (edges : list nat) (e e' : nat) : Prop := In e edges /\ In e' edges /\ exists v, meets e v /\ meets e' v.
Definition connected (edges : list nat) : nat -> nat -> Prop := clos_refl_trans nat (touch edges).

(** ** The meshes the segments come from *)
(** the faces on the two sides of an edge of the meshes; faces below [sm] are of the source mesh *)
Variable sides : nat -> option nat * option nat.
Variable sm : nat.
Definition border_edge (e : nat) : Prop := exists f, sides e = (Some f, None) \/ sides e = (None, Some f).
Definition source_edge (e : nat) : Prop := exists f, (fst (sides e) = Some f \/ snd (sides e) = Some f) /\ f < sm.

(** The point of intersection number [first + i] is where the edge and the face of the i-th entry meet. *)
Variable first : nat.
Variable entries : list (nat * nat).
Definition entry (v : nat) (x : nat * nat) : Prop := exists i, v = first + i /\ nth_error entries i = Some x.

(** Every point of the curves is recorded; exactly the points on border edges are ends of curves; a border edge has one face. *)
Definition recorded (edges : list nat) : Prop :=
  forall e v, In e edges -> meets e v -> exists pe pf, entry v (pe, pf) /\ (exists f, fst (sides pe) = Some f \/ snd (sides pe) = Some f) /\ (length (incident edges v) = 1 <-> border_edge pe).

(** the point lies on a border edge of the source mesh *)
Definition on_source (v : nat) : Prop := exists pe pf, entry v (pe, pf) /\ source_edge pe.

(** ** Floating polygons *)
(** The closed curve s lies in the face f: in all its points an edge meets f. *)
Definition floating (s : list nat) (f : nat) : Prop :=
  exists a ws, closed_curve s a ws /\ forall w, In w (a :: ws) -> exists pe, entry w (pe, f).
(** p lists the points around the closed curve s, from one of them on and in one of the two directions. *)
Definition outline (s p : list nat) : Prop :=
  match p with [] => False | a :: ws => exists s', Permutation s' s /\ closed_curve s' a ws end.
(** What has to be reported of a list of curves: for every floating one, in order, the face and the outline; nothing of the others. *)
Inductive reported : list (list nat) -> list (nat * list nat) -> Prop :=
| reported_nil : reported [] []
| reported_skip s seqs out : (forall f, ~ floating s f) -> reported seqs out -> reported (s :: seqs) out
| reported_take s seqs out f p : floating s f -> outline s p -> reported seqs out -> reported (s :: seqs) ((f, p) :: out).
(** A closed curve does not leave a face in one point only: a segment that leaves the face over an edge ends on another face there, and so
    does the next. *)
Definition no_single_exit (s : list nat) : Prop :=
  forall a ws, closed_curve s a ws -> forall v f, In v (a :: ws) -> (forall w, In w (a :: ws) -> w <> v -> exists pe, entry w (pe, f)) -> exists pe, entry v (pe, f).
End Spec.
