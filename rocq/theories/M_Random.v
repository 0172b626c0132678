(* Model of Transforms/RandomBuilder.hpp. [draw] is distribution(engine): a number and the next state of distribution and engine;
   [cast] is static_cast<T>. *)
From mathcomp Require Import all_ssreflect all_algebra.
From Verif Require Import M_Vec M_Mat M_Quat.
Set Implicit Arguments. Unset Strict Implicit. Unset Printing Implicit Defensive.

Section Random.
Variables (D E : Type) (draw : E -> D * E).

(* RandomBuilder.hpp:23-32 conversion to a matrix *)
Definition random_matrix (T : Type) (cast : D -> T) (rm : bool) (jk : T) (r c : nat) (e : E) : mat T * E :=
  for_loop 0 r (fun i (s : mat T * E) => for_loop 0 c (fun j (s : mat T * E) =>
    let (m, e) := s in let (x, e) := draw e in (set m i j (cast x), e)) s) (uninit rm jk r c, e).

(* RandomBuilder.hpp:34-41 conversion to a vector: the elements of a new vector of Dim undetermined elements are written in turn *)
Definition random_vector (T : Type) (cast : D -> T) (jk : T) (n : nat) (e : E) : seq T * E :=
  for_loop 0 n (fun i (s : seq T * E) => let (v, e) := s in let (x, e) := draw e in (set_nth jk v i (cast x), e)) (nseq n jk, e).

(* RandomBuilder.hpp:43-51 conversion to a quaternion. The arguments stand in braces: they are evaluated from left to right *)
Definition random_quat (R : ringType) (cast : D -> R) (jk : R) (sf : bool) (e : E) : quat R * E :=
  let (s, e) := draw e in let (i, e) := draw e in let (j, e) := draw e in let (k, e) := draw e in
  (of_elements jk sf (cast s) (cast i) (cast j) (cast k), e).
End Random.
