(* Derivatives of e^(ts) cos(tL) and e^(ts) sin(tL) *)
From Coq Require Import Reals.
From Coquelicot Require Import Coquelicot.
Local Open Scope R_scope.
Lemma d_ec (s L t : R) : derivable_pt_lim (fun t => exp (t * s) * cos (t * L)) t (exp (t * s) * (s * cos (t * L) - L * sin (t * L))).
Proof. apply is_derive_Reals; auto_derive; [exact I|ring]. Qed.
Lemma d_es (s L x t : R) : derivable_pt_lim (fun t => exp (t * s) * (sin (t * L) * x)) t (exp (t * s) * ((s * sin (t * L) + L * cos (t * L)) * x)).
Proof. apply is_derive_Reals; auto_derive; [exact I|ring]. Qed.
