(** Splines: the properties. Exact arithmetic unless an arithmetic is named; [eps] is the
    machine epsilon the code compares with. [= Some (c, ok)]: no access outside an array or to
    an uninitialised cell; [ok] is the return value. *)
From Coq Require Import QArith ZArith Reals List Bool SpecFloat.
From Verif Require Import Arith SplineModel SplineSpec SplineFacts SplineEval SplineWitness.
Import ListNotations.
Local Open Scope R_scope.

(** C15. *)
Theorem C15_slopes :
  forall (big eps : R) (Y : list R) (n : nat), (n <= length Y)%nat -> 0 < eps ->
  forall X, (2 <= n)%nat -> (n <= length X)%nat -> increasing X n ->
  exists c ok, slopes (R_arith big eps) X Y n = Some (c, ok) /\ (ok = true -> exists p, fits c (n - 1) (gap X) Y p).
Proof. exact @slopes_c15. Qed.
Print Assumptions C15_slopes.

Theorem C15_uniform_slopes :
  forall (big eps : R) (Y : list R) (n : nat), (n <= length Y)%nat -> 0 < eps ->
  forall h, (2 <= n)%nat -> 0 < h ->
  exists c ok, uniform_slopes (R_arith big eps) Y n h = Some (c, ok) /\ (ok = true -> exists p, fits c (n - 1) (fun _ => h) Y p).
Proof. exact @uslopes_c15. Qed.
Print Assumptions C15_uniform_slopes.

Theorem C15_periodic :
  forall (big eps : R) (X Y : list R) (n : nat), (4 <= n)%nat -> (n <= length X)%nat -> (n <= length Y)%nat -> increasing X n ->
  exists c ok, general_periodic (R_arith big eps) X Y n = Some (c, ok) /\ (ok = true -> exists p, fits c (n - 1) (gap X) Y p).
Proof. exact @periodic_c15'. Qed.
Print Assumptions C15_periodic.

Theorem C15_uniform_periodic :
  forall (big eps : R) (Y : list R) (n : nat) h, (4 <= n)%nat -> (n <= length Y)%nat -> 0 < h ->
  exists c ok, uniform_periodic (R_arith big eps) Y n h = Some (c, ok) /\ (ok = true -> exists p, fits c (n - 1) (fun _ => h) Y p).
Proof. exact @uperiodic_c15'. Qed.
Print Assumptions C15_uniform_periodic.

Example C15_example := fit_example.

(** C16. The prescribed end slopes are the difference quotients of the first and last pair. *)
Theorem C16_slopes :
  forall (big eps : R) (Y : list R) (n : nat), (n <= length Y)%nat -> 0 < eps ->
  forall X, (2 <= n)%nat -> (n <= length X)%nat -> increasing X n ->
  exists c ok, slopes (R_arith big eps) X Y n = Some (c, ok) /\ (ok = true -> exists p, fits c (n - 1) (gap X) Y p /\
    (forall i, (S i < n - 1)%nat -> smooth_join (p i) (gap X i) (p (S i))) /\
    slope (p 0%nat) 0 = (pt Y 1 - pt Y 0) / (pt X 1 - pt X 0) /\
    slope (p (n - 2)%nat) (pt X (n - 1) - pt X (n - 2)) = (pt Y (n - 1) - pt Y (n - 2)) / (pt X (n - 1) - pt X (n - 2))).
Proof. exact @slopes_c16. Qed.
Print Assumptions C16_slopes.

Theorem C16_uniform_slopes :
  forall (big eps : R) (Y : list R) (n : nat), (n <= length Y)%nat -> 0 < eps ->
  forall h, (2 <= n)%nat -> 0 < h ->
  exists c ok, uniform_slopes (R_arith big eps) Y n h = Some (c, ok) /\ (ok = true -> exists p, fits c (n - 1) (fun _ => h) Y p /\
    (forall i, (S i < n - 1)%nat -> smooth_join (p i) h (p (S i))) /\
    slope (p 0%nat) 0 = (pt Y 1 - pt Y 0) / h /\
    slope (p (n - 2)%nat) h = (pt Y (n - 1) - pt Y (n - 2)) / h).
Proof. exact @uslopes_c16. Qed.
Print Assumptions C16_uniform_slopes.

(** [slope] and [bend] are the derivatives of [value]. *)
Theorem C16_slope_is_derivative : forall q u, derivable_pt_lim (value q) u (slope q u).
Proof. exact @value_deriv. Qed.
Print Assumptions C16_slope_is_derivative.
Theorem C16_bend_is_derivative : forall q u, derivable_pt_lim (slope q) u (bend q u).
Proof. exact @slope_deriv. Qed.
Print Assumptions C16_bend_is_derivative.

(** C17. *)
Theorem C17_tridiagonal :
  forall (big eps : R) size d ud ld vec s n (D U L V : nat -> R) (m : mem (R_arith big eps)), 0 < eps -> (0 < n)%nat ->
  (d + n <= size)%nat -> (ud + (n - 1) <= size)%nat -> (ld + (n - 1) <= size)%nat -> (vec + n <= size)%nat -> (s + n <= size)%nat ->
  disjoint d n ud (n - 1) -> disjoint d n ld (n - 1) -> disjoint d n vec n -> disjoint d n s n ->
  disjoint ud (n - 1) ld (n - 1) -> disjoint ud (n - 1) vec n -> disjoint ud (n - 1) s n ->
  disjoint ld (n - 1) vec n -> disjoint vec n s n ->
  holds_array m d n D -> holds_array m ud (n - 1) U -> holds_array m ld (n - 1) L -> holds_array m vec n V ->
  exists m' ok, tridiagonal (R_arith big eps) size d ud ld vec s n m = Some (m', ok) /\
    (ok = true -> exists x, holds_array m' s n x /\ solves n D U L V x).
Proof. exact @tridiagonal_solves. Qed.
Print Assumptions C17_tridiagonal.

(** C18, for breaks starting at zero. Missing: other breaks, for which the claim is false. *)
Theorem C18_piece_partial :
  forall (big eps : R) (coefs : mem (R_arith big eps)) N p, (2 <= N)%nat ->
  (forall i, (i < N - 1)%nat -> piece coefs (N - 1) i (p i)) ->
  forall breaks, (N <= length breaks)%nat -> forall t, increasing breaks N -> pt breaks 0 = 0 ->
  exists i, (i < N - 1)%nat /\ (i = 0%nat \/ pt breaks i - eps <= t) /\ (i = (N - 2)%nat \/ t < pt breaks (S i) - eps) /\
  val_spline (R_arith big eps) coefs breaks N t = Some (value (p i) (t - pt breaks i)).
Proof. exact @eval_spec. Qed.
Print Assumptions C18_piece_partial.

(** Uniform breaks 0, h, 2h, ...: wherever the conversion of t / h to an integer is defined,
    three passes of the search loop are enough and the piece is the right one. *)
Theorem C18_uniform_defined :
  forall (big eps : R) (coefs : mem (R_arith big eps)) N p, (2 <= N)%nat ->
  (forall i, (i < N - 1)%nat -> piece coefs (N - 1) i (p i)) ->
  forall cast, truncating cast -> forall h, 0 < h -> forall fuel t z, 0 < eps <= h -> (3 <= fuel)%nat -> cast (t / h) = Some z ->
  exists v, val_uniform (R_arith big eps) cast fuel coefs N h t = Some v.
Proof. exact @ueval_defined. Qed.
Print Assumptions C18_uniform_defined.
Theorem C18_uniform :
  forall (big eps : R) (coefs : mem (R_arith big eps)) N p, (2 <= N)%nat ->
  (forall i, (i < N - 1)%nat -> piece coefs (N - 1) i (p i)) ->
  forall cast, truncating cast -> forall h, 0 < h -> forall fuel t v, 0 < eps ->
  val_uniform (R_arith big eps) cast fuel coefs N h t = Some v ->
  exists i, (i < N - 1)%nat /\ (i = 0%nat \/ INR i * h - eps <= t) /\ (i = (N - 2)%nat \/ t < INR (S i) * h - eps) /\
  v = value (p i) (t - INR i * h).
Proof. exact @ueval_spec. Qed.
Print Assumptions C18_uniform.
Example C18_example := icast_ok.

(** Fitting and evaluating at the data points gives the data back. *)
Theorem C18_fit_then_evaluate :
  forall (big eps : R) X Y n, 0 < eps -> (2 <= n)%nat -> (n <= length X)%nat -> (n <= length Y)%nat ->
  pt X 0 = 0 -> (forall i, (S i < n)%nat -> pt X i + eps < pt X (S i)) ->
  exists c ok, slopes (R_arith big eps) X Y n = Some (c, ok) /\
  (ok = true -> forall j, (j < n)%nat -> val_spline (R_arith big eps) c X n (pt X j) = Some (pt Y j)).
Proof. exact @fit_then_evaluate. Qed.
Print Assumptions C18_fit_then_evaluate.

(** Binary64: the spline through (1,0), (2,1), (3,3), evaluated at 1, is 1 instead of 0. *)
Theorem C18_shifted_breaks_refuted :
  exists c v, slopes D_arith (ds [1; 2; 3]%Q) (ds [0; 1; 3]%Q) 3 = Some (c, true) /\
  val_spline D_arith c (ds [1; 2; 3]%Q) 3 (SplineWitness.d 1) = Some v /\ feq v (SplineWitness.d 1) = true.
Proof. exact shifted_ex. Qed.
Print Assumptions C18_shifted_breaks_refuted.

(** C19, the part that holds: interpolation and continuity of the second derivative,
    including across the period. Missing: continuity of the first derivative. *)
Theorem C19_periodic_partial :
  forall (big eps : R) X Y n, (4 <= n)%nat -> (n <= length X)%nat -> (n <= length Y)%nat -> increasing X n ->
  exists c ok, general_periodic (R_arith big eps) X Y n = Some (c, ok) /\ (ok = true -> exists p, fits c (n - 1) (gap X) Y p /\
    (forall i, (S i < n - 1)%nat -> bend (p i) (gap X i) = bend (p (S i)) 0) /\
    bend (p (n - 2)%nat) (gap X (n - 2)) = bend (p 0%nat) 0).
Proof. exact @periodic_c15. Qed.
Print Assumptions C19_periodic_partial.
Theorem C19_uniform_periodic_partial :
  forall (big eps : R) Y n h, (4 <= n)%nat -> (n <= length Y)%nat -> 0 < h ->
  exists c ok, uniform_periodic (R_arith big eps) Y n h = Some (c, ok) /\ (ok = true -> exists p, fits c (n - 1) (fun _ => h) Y p /\
    (forall i, (S i < n - 1)%nat -> bend (p i) h = bend (p (S i)) 0) /\
    bend (p (n - 2)%nat) h = bend (p 0%nat) 0).
Proof. exact @uperiodic_c15. Qed.
Print Assumptions C19_uniform_periodic_partial.

(** Binary64, values 0 1 0 -1 0: success is reported and the first derivative jumps from above
    1 to below -1 at the first interior break. *)
Theorem C19_uniform_kink_refuted :
  exists c a b, uniform_periodic D_arith (ds [0; 1; 0; -1; 0]%Q) 5 (SplineWitness.d 1) = Some (c, true) /\
  end_slope c 4 0 (SplineWitness.d 1) = Some a /\ start_slope c 4 1 = Some b /\
  flt (SplineWitness.d 1) a = true /\ flt b (SplineWitness.d (-1)) = true.
Proof. exact (kinked_ex _ uniform_kink). Qed.
Print Assumptions C19_uniform_kink_refuted.
Theorem C19_kink_refuted :
  exists c a b, general_periodic D_arith (ds [0; 1; 2; 3; 4]%Q) (ds [0; 1; 0; -1; 0]%Q) 5 = Some (c, true) /\
  end_slope c 4 0 (SplineWitness.d 1) = Some a /\ start_slope c 4 1 = Some b /\
  flt (SplineWitness.d 1) a = true /\ flt b (SplineWitness.d (-1)) = true.
Proof. exact (kinked_ex _ general_kink). Qed.
Print Assumptions C19_kink_refuted.
(** Three points: the routine writes outside last_column, for every input. *)
Theorem C19_three_points_refuted :
  forall (A : arith) (Y : list (F A)) h, (3 <= length Y)%nat -> uniform_periodic A Y 3 h = None.
Proof. exact three_points. Qed.
Print Assumptions C19_three_points_refuted.

(** The cyclic solver itself, on arrays that do not overlap. Missing: it does not test its last
    pivot, left in d[nn - 2]. *)
Theorem C19_solver_partial :
  forall (big eps : R) size d ud ld vec s nn (D U L V : nat -> R) (m : mem (R_arith big eps)), 0 < eps -> (3 <= nn)%nat ->
  (d + nn <= size)%nat -> (ud + nn <= size)%nat -> (ld + nn <= size)%nat -> (vec + nn <= size)%nat -> (s + S nn <= size)%nat ->
  disjoint d nn ud nn -> disjoint d nn ld nn -> disjoint d nn vec nn -> disjoint d nn s (S nn) ->
  disjoint ud nn ld nn -> disjoint ud nn vec nn -> disjoint ud nn s (S nn) ->
  disjoint ld nn vec nn -> disjoint vec nn s (S nn) ->
  holds_array m d nn D -> holds_array m ud nn U -> holds_array m ld nn L -> holds_array m vec nn V ->
  exists m' ok, periodic (R_arith big eps) size d ud ld vec s nn m = Some (m', ok) /\
    (ok = true -> m' (d + (nn - 2))%nat <> Some 0 -> exists x, holds_array m' s (S nn) x /\ solves_cyclic nn D U L V x).
Proof. exact @periodic_solves. Qed.
Print Assumptions C19_solver_partial.
Example C19_solver_example := fine4_ok.

(** Binary64: success with NaN for a system (the same as in [sys3_regular]) that has exactly
    one solution. *)
Theorem C19_solver_refuted :
  exists m', periodic D_arith 16 0 3 6 9 12 3 sys3 = Some (m', true) /\ m' 15%nat = Some S754_nan.
Proof. exact cyc_nan_ex. Qed.
Print Assumptions C19_solver_refuted.
Theorem C19_solver_refuted_regular :
  forall x, solves_cyclic 3 (lst [1;1;1]) (lst [1;1;0]) (lst [0;1;1]) (lst [1;2;3]) x <->
  x 0%nat = 1 /\ x 1%nat = -1 /\ x 2%nat = 2 /\ x 3%nat = 1.
Proof. exact sys3_regular. Qed.
Print Assumptions C19_solver_refuted_regular.

(** C20. *)
Theorem C20_derivatives :
  forall (big eps : R) (coefs : mem (R_arith big eps)) N p, (2 <= N)%nat ->
  (forall i, (i < N - 1)%nat -> piece coefs (N - 1) i (p i)) ->
  exists c1 c2, first_deri (R_arith big eps) coefs N = Some c1 /\ second_deri (R_arith big eps) coefs N = Some c2 /\
  forall breaks t, (N <= length breaks)%nat -> exists i d1 d2, (i < N - 1)%nat /\
    let f := fun u => value (p i) (u - pt breaks i) in
    val_spline (R_arith big eps) coefs breaks N t = Some (f t) /\
    val_first (R_arith big eps) c1 breaks N t = Some d1 /\ val_second (R_arith big eps) c2 breaks N t = Some d2 /\
    derivable_pt_lim f t d1 /\
    exists f', (forall u, derivable_pt_lim f u (f' u)) /\ derivable_pt_lim f' t d2.
Proof. exact @derivatives. Qed.
Print Assumptions C20_derivatives.
Theorem C20_uniform_derivatives :
  forall (big eps : R) (coefs : mem (R_arith big eps)) N p cast h fuel t z, (2 <= N)%nat ->
  (forall i, (i < N - 1)%nat -> piece coefs (N - 1) i (p i)) ->
  truncating cast -> 0 < eps <= h -> (3 <= fuel)%nat -> cast (t / h) = Some z ->
  exists c1 c2, first_deri (R_arith big eps) coefs N = Some c1 /\ second_deri (R_arith big eps) coefs N = Some c2 /\
  exists i d1 d2, (i < N - 1)%nat /\
    (i = 0%nat \/ INR i * h - eps <= t) /\ (i = (N - 2)%nat \/ t < INR (S i) * h - eps) /\
    let f := fun u => value (p i) (u - INR i * h) in
    val_uniform (R_arith big eps) cast fuel coefs N h t = Some (f t) /\
    val_first_uniform (R_arith big eps) cast fuel c1 N h t = Some d1 /\
    val_second_uniform (R_arith big eps) cast fuel c2 N h t = Some d2 /\
    derivable_pt_lim f t d1 /\
    exists f', (forall u, derivable_pt_lim f u (f' u)) /\ derivable_pt_lim f' t d2.
Proof. exact @uniform_derivatives. Qed.
Print Assumptions C20_uniform_derivatives.

(** C63. The routines with end slopes succeed on every increasing sequence whose two end
    intervals are not tiny. *)
Theorem C63_slopes_succeed :
  forall (big eps : R) n Y, (2 <= n)%nat -> (n <= length Y)%nat -> 0 < eps -> forall X, (n <= length X)%nat -> increasing X n ->
  eps <= 1 -> 6 * eps <= pt X 1 - pt X 0 -> 6 * eps <= pt X (n - 1) - pt X (n - 1 - 1) ->
  exists c, slopes (R_arith big eps) X Y n = Some (c, true).
Proof. exact @slopes_succeeds. Qed.
Print Assumptions C63_slopes_succeed.
Theorem C63_uniform_slopes_succeed :
  forall (big eps : R) n Y, (2 <= n)%nat -> (n <= length Y)%nat -> 0 < eps -> forall h, eps <= 1 -> 6 * eps <= h ->
  exists c, uniform_slopes (R_arith big eps) Y n h = Some (c, true).
Proof. exact @uniform_succeeds. Qed.
Print Assumptions C63_uniform_slopes_succeed.
Example C63_example := fit_example.
