(* Model of ForUnrolled, Common/OptimizationUtil.hpp:34-64. The overflow of ptrdiff_t is not modelled: the bounds are
   compile-time constants and an overflowing constant expression does not compile. *)
From Coq Require Import ZArith List.
Import ListNotations.
Local Open Scope Z_scope.

Section Unroll.
Variable State : Type.
(* the call fun(i, args...): the arguments and the captured variables are the state *)
Variable fun_ : Z -> State -> State.

(* the loop of Common/OptimizationUtil.hpp:49-51: for (auto i = First; i < Last; i += Step) fun(i, args...); big-step semantics *)
Inductive loop (last step : Z) : Z -> State -> State -> Prop :=
| loop_end i s : (i <? last) = false -> loop last step i s s
| loop_step i s s' : (i <? last) = true -> loop last step (i + step) (fun_ i s) s' -> loop last step i s s'.

(* Common/OptimizationUtil.hpp:34-53: one instantiation of the template calls the next one. Z.quot: C++ division truncates. *)
Inductive for_unrolled (last step limit : Z) : Z -> State -> State -> Prop :=
| unroll_call first s s' :
    (Z.quot (last - first) step <=? limit) = true ->
    (if 0 <? step then first <? last else last <? first) = true ->
    for_unrolled last step limit (first + step) (fun_ first s) s' ->
    for_unrolled last step limit first s s'
| unroll_end first s :
    (Z.quot (last - first) step <=? limit) = true ->
    (if 0 <? step then first <? last else last <? first) = false ->
    for_unrolled last step limit first s s
| unroll_loop first s s' :
    (Z.quot (last - first) step <=? limit) = false ->
    loop last step first s s' ->
    for_unrolled last step limit first s s'.
End Unroll.
