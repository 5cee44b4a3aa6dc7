(** Specification vocabulary for elementary collapses. *)
From Coq Require Import List.
From Verif Require Import IsoSpec.
Import ListNotations.

(** [sigma] is a free face of the simplex [x :: sigma] of the complex generated by [hist]: no simplex outside [x :: sigma] has it as a face.
    The complex generated by [hist'] is what is left when the simplices having [sigma] as a face (that is [sigma] and [x :: sigma]) are removed. *)
Definition collapse {T} (x : T) (sigma : list T) (hist hist' : list (list T)) : Prop :=
  sigma <> [] /\ NoDup (x :: sigma) /\ face_of hist (x :: sigma) /\ (forall c, face_of hist c -> incl sigma c -> incl c (x :: sigma)) /\
  forall c, face_of hist' c <-> face_of hist c /\ ~ incl sigma c.
(** Any number of collapses, one after the other. *)
Inductive collapses {T} : list (list T) -> list (list T) -> Prop :=
| col_refl hist : collapses hist hist
| col_step x sigma hist hist1 hist2 : collapse x sigma hist hist1 -> Forall (fun s => s <> [] /\ NoDup s) hist1 -> collapses hist1 hist2 -> collapses hist hist2.
