(* Model of common_arithmetic_type, Common/TypeTraits.hpp:328-382, without the overload for SIMD batches. [plus a b]: the type of
   the sum of a value of type a and one of type b, None if there is no such operator. The types given are not void. *)
From Coq Require Import List Bool.
Import ListNotations.

Section Types.
Variable ty : Type.
Variable plus : ty -> ty -> option ty.

(* void or a type *)
Inductive type_result := Void | Type_ (t : ty).

(* TypeTraits.hpp:347-350 get_type: the overload with the ellipsis returns void *)
Definition get_type (a b : ty) : type_result := match plus a b with Some c => Type_ c | None => Void end.
(* TypeTraits.hpp:352-355 is_valid *)
Definition is_valid (a b : ty) : bool := match plus a b with Some _ => true | None => false end.

(* TypeTraits.hpp:345-359 instantiating the class for the types first, rest...: its member type names the class for
   get_type(first, second), Rest... and its member valid names the class for second, Rest... No object of type void can be
   passed to get_type, so a first type void with others following is an error *)
Fixpoint well_formed (first : type_result) (rest : list ty) : bool :=
  match rest with
  | [] => true
  | t2 :: rest' => match first with Void => false | Type_ t1 => well_formed (get_type t1 t2) rest' && well_formed (Type_ t2) rest' end
  end.
(* TypeTraits.hpp:341,357 the member type of a well-formed class *)
Fixpoint common_type (first : type_result) (rest : list ty) : type_result :=
  match rest with
  | [] => first
  | t2 :: rest' => common_type (match first with Void => Void | Type_ t1 => get_type t1 t2 end) rest'
  end.
(* TypeTraits.hpp:342,358 the member valid *)
Fixpoint valid (first : ty) (rest : list ty) : bool :=
  match rest with
  | [] => true
  | t2 :: rest' => is_valid first t2 && valid t2 rest'
  end.
(* TypeTraits.hpp:364-365 common_arithmetic_type: std::enable_if<valid, type>. The outer None: the program is ill-formed; the
   inner None: there is no member type (a substitution failure). 333-337: nothing for no types *)
Definition common_arithmetic_type (l : list ty) : option (option type_result) :=
  match l with
  | [] => Some None
  | t :: rest => if well_formed (Type_ t) rest then Some (if valid t rest then Some (common_type (Type_ t) rest) else None) else None
  end.
End Types.
Arguments Void {ty}.
Arguments Type_ {ty} t.
