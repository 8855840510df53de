(** Functions of one image, and their application to every image of a batch. *)
From Coq Require Import ZArith List.
From Verif Require Import Base.
Import ListNotations.
Open Scope Z_scope.

Section BatchSpec.
  Context {A B : Type}.

  (** [f] maps images of shape [ds] to images of shape [ds'] and looks at
      nothing else than the pixels. *)
  Definition image_map (ds ds' : list Z) (f : (list Z -> A) -> list Z -> B) : Prop :=
    forall X Y, (forall ix, valid ds ix -> X ix = Y ix) -> forall ix, valid ds' ix -> f X ix = f Y ix.

  (** Image [l] of a batch. *)
  Definition image (X : list Z -> A) (l : Z) : list Z -> A := fun ix => X (l :: ix).

  (** [f] applied to each image of the batch separately. *)
  Definition each (f : (list Z -> A) -> list Z -> B) (X : list Z -> A) : list Z -> B :=
    fun ix => f (image X (nth 0 ix 0)) (tl ix).

  (** Image [l] of one batch is image [l'] of another. *)
  Definition same_image (ds : list Z) (X : list Z -> A) (l : Z) (X' : list Z -> A) (l' : Z) : Prop :=
    forall ix, valid ds ix -> X (l :: ix) = X' (l' :: ix).
End BatchSpec.
