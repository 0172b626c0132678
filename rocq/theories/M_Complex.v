(* Model of Vector/Math.hpp and Matrix/Math.hpp for complex element types: std::complex<Real> is R[i] over the
   ordered field R of the real numbers of the code, exact arithmetic. Binary operators between a complex and a real
   operand convert the real operand with %:C. None: a division by zero.
   [tmin], [tmax]: std::numeric_limits<Real>::min() and max(). *)
From mathcomp Require Import all_ssreflect all_algebra.
From mathcomp Require Import complex.
From Verif Require Import M_Vec M_Mat.
Set Implicit Arguments. Unset Strict Implicit. Unset Printing Implicit Defensive.
Import GRing.Theory Num.Theory.
Local Open Scope complex_scope.
Local Open Scope ring_scope.

Section Vectors.
Variable R : rcfType.
Implicit Types v : seq R[i].

(* std::abs(std::complex) *)
Definition cabs (z : R[i]) : R := Num.sqrt (complex.Re z ^+ 2 + complex.Im z ^+ 2).
(* Vector/Math.hpp:114-132 Real, Imag, Conj *)
Definition vreal v : seq R := vmap (fun z => complex.Re z) v.
Definition vimag v : seq R := vmap (fun z => complex.Im z) v.
Definition vconj v : seq R[i] := vmap (fun z => conjc z) v.
Definition vabs (v : seq R) : seq R := vmap (fun x => `|x|) v.
(* Vector/Math.hpp:91-104 ScaleElements, complex branch: Max(Max(Abs(re), Abs(im))) *)
Definition cscale_elements v : R := vmaxelem (vmax2 (vabs (vreal v)) (vabs (vimag v))).
(* Vector/Math.hpp:176-180 Dot: Sum(lhs * Conj(rhs)) *)
Definition cdot (a b : seq R[i]) : R[i] := vsum (vmul a (vconj b)).
(* Vector/Math.hpp:190-194 LengthSquared = std::real(Dot(v, v)), 197-201 Length *)
Definition clength_squared v : R := complex.Re (cdot v v).
Definition clength v : R := Num.sqrt (clength_squared v).
(* Vector/Arithmetic.hpp:131-134 vector / scalar with a real scalar *)
Definition cdivs v (s : R) : option (seq R[i]) :=
  if s == 0 then None else Some [seq z / s%:C | z <- v].
(* Vector/Math.hpp:204-213 LengthPrecise *)
Definition clength_precise (tmin tmax : R) v : option R :=
  let scale := std_clamp (cscale_elements v) tmin tmax in
  if cdivs v scale is Some scaled then Some (clength scaled * scale) else None.
(* Vector/Math.hpp:216-228 Distance, DistancePrecise *)
Definition cdistance (a b : seq R[i]) : R := clength (vsub a b).
Definition cdistance_precise (tmin tmax : R) (a b : seq R[i]) := clength_precise tmin tmax (vsub a b).
(* Vector/Math.hpp:231-238 Normalize; the assertion length != 0 is the None case *)
Definition cnormalize v : option (seq R[i]) := cdivs v (clength v).
(* Vector/Math.hpp:241-251 NormalizePrecise: a zero scale gives NaN in every lane, so the length is not finite
   and the fallback is returned *)
Definition cnormalize_precise_or v (degenerate : seq R[i]) : seq R[i] :=
  match cdivs v (cscale_elements v) with
  | None => degenerate
  | Some scaled =>
      let length := clength scaled in
      if length != 0 then [seq z / length%:C | z <- scaled] else degenerate
  end.
(* Vector/Math.hpp:254-261 NormalizePrecise with the default fallback (1, 0, ..., 0) *)
Definition cunit0 (dim : nat) : seq R[i] := set_nth 0 (nseq dim 0) 0 1.
Definition cnormalize_precise v : seq R[i] := cnormalize_precise_or v (cunit0 (size v)).

(* Vector/Math.hpp:287-307 GramSchmidtOrthogonalize: proj, the inner loop over the outputs written so far and
   the outer loop ([done]: the outputs written so far) *)
Definition cgs_proj (u v : seq R[i]) : option (seq R[i]) :=
  let uScaled := cnormalize_precise u in
  if cdot u uScaled == 0 then None else Some (vscalel (cdot v uScaled / cdot u uScaled) u).
Fixpoint cgs_inner (prev : seq (seq R[i])) (uk : seq R[i]) : option (seq R[i]) :=
  match prev with
  | [::] => Some uk
  | u :: prev' => if cgs_proj u uk is Some p then cgs_inner prev' (vsub uk p) else None
  end.
Fixpoint cgs_outer (done vs : seq (seq R[i])) : option (seq (seq R[i])) :=
  match vs with
  | [::] => Some done
  | vk :: vs' => if cgs_inner done vk is Some uk then cgs_outer (rcons done uk) vs' else None
  end.
Definition cgram_schmidt (vs : seq (seq R[i])) : option (seq (seq R[i])) := cgs_outer [::] vs.
End Vectors.

Section Matrices.
Variable R : rcfType.
Implicit Types A : mat R[i].

(* a new matrix whose stripes are the images of the stripes: the loops of Math.hpp:64-109. The element type of the
   result may differ from the one of the argument. *)
Definition stripe_map (T U : Type) (jk : U) (f : seq T -> seq U) (r c : nat) (A : mat T) : mat U :=
  for_loop 0 (stripe_count (rowmaj A) r c) (fun s M => set_stripe M s (f (nth [::] (stripes A) s)))
    (uninit (rowmaj A) jk r c).
(* Math.hpp:76-85 Real, 90-99 Imag, 64-73 Abs of a real matrix, 103-109 Conj *)
Definition mat_real r c A : mat R := stripe_map (complex.Re (junk A)) (@vreal R) r c A.
Definition mat_imag r c A : mat R := stripe_map (complex.Im (junk A)) (@vimag R) r c A.
Definition mat_abs r c (A : mat R) : mat R := stripe_map (junk A) (@vabs R) r c A.
Definition mat_conj r c A : mat R[i] := stripe_map (junk A) (@vconj R) r c A.
(* Math.hpp:289-293 ConjTranspose of an r x c matrix *)
Definition conj_transpose (r c : nat) A : mat R[i] := mat_conj c r (transpose r c A).
(* Math.hpp:42-50 ScaleElements *)
Definition cmat_scale_elements (r c : nat) A : R :=
  for_loop 0 (stripe_count (rowmaj A) r c)
    (fun s scale => std_max scale (cscale_elements (nth [::] (stripes A) s))) 0.
(* Math.hpp:112-116 NormSquared: Sum(Real(Hadamard(m, Conj(m)))), 119-123 Norm *)
Definition cnorm_squared (r c : nat) A : R := mat_sum r c (mat_real r c (hadamard r c A (mat_conj r c A))).
Definition cnorm (r c : nat) A : R := Num.sqrt (cnorm_squared r c A).
(* Math.hpp:126-140 NormPrecise, complex branch *)
Definition cnorm_precise (r c : nat) A : option R :=
  let re := mat_abs r c (mat_real r c A) in
  let im := mat_abs r c (mat_imag r c A) in
  let maxElement := std_max (mat_max r c re) (mat_max r c im) in
  if maxElement == 0 then Some 0
  else
    match mat_div r c re maxElement, mat_div r c im maxElement with
    | Some reScaled, Some imScaled =>
        let sq := mat_add r c (hadamard r c reScaled reScaled) (hadamard r c imScaled imScaled) in
        Some (Num.sqrt (mat_sum r c sq) * maxElement)
    | _, _ => None
    end.
End Matrices.
