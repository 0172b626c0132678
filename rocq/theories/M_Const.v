(* Model of the class Constants of Utility.hpp. A constant is written as a long double literal, which the compiler
   rounds to long double, and is converted to the scalar type: two roundings. [longdouble], [scalar]: rounding
   to the two formats. Only floating point scalars are modelled (Constants<int> truncates). *)
From Coq Require Import Reals.
Local Open Scope R_scope.

Section Constants.
Variables longdouble scalar : R -> R.
(* Utility.hpp:25-30 *)
Definition const_pi := scalar (longdouble 3.1415926535897932384626433832795028841971693993751).
Definition const_pi_half := scalar (longdouble 1.5707963267948966192313216916397514420985846996876).
Definition const_pi_fourth := scalar (longdouble 0.78539816339744830961566084581987572104929234984378).
Definition const_e := scalar (longdouble 2.7182818284590452353602874713526624977572470937).
Definition const_sqrt2 := scalar (longdouble 1.4142135623730950488016887242096980785696718753769).
Definition const_sqrt_half := scalar (longdouble 0.70710678118654752440084436210484903928483593768847).
End Constants.
