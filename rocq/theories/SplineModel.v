(** Model of Others/Spline.cpp.

    The work space of each routine is one block of memory with pointers into it, as in the
    code.  A cell is [None] when it is outside the block or was never written; reading such a
    cell, or writing outside the block, makes the routine return [None].  Input arrays are
    lists; reading past their end is the same error. *)
From Coq Require Import QArith ZArith List Bool Arith Lia.
From Verif Require Import Arith.
Import ListNotations.

Section spline.
Context (A : arith).
Notation F := (F A).
Local Open Scope arith_scope.
Notation lit q := (@fq A q).

Definition mem := nat -> option F.
(** new realdp[...] *)
Definition fresh : mem := fun _ => None.
Definition upd (m : mem) (i : nat) (v : F) : mem := fun j => if Nat.eqb j i then Some v else m j.
(** a[i] = v in a block of [size] cells. *)
Definition wr (size : nat) (m : mem) (i : nat) (v : F) : option mem :=
  if Nat.ltb i size then Some (upd m i v) else None.
Definition bind {X Y} (o : option X) (f : X -> option Y) : option Y :=
  match o with Some x => f x | None => None end.
Notation "'do' x <- a ; b" := (bind a (fun x => b)) (at level 60, x name, a at level 59, b at level 60, right associativity).
Notation "'dop' ' p <- a ; b" := (bind a (fun p => b)) (at level 60, p pattern, a at level 59, b at level 60, right associativity).

(** for (i = ..; k passes; i++) body *)
Fixpoint for_ {S} (k i : nat) (body : nat -> S -> option S) (m : S) : option S :=
  match k with
  | O => Some m
  | Datatypes.S k => do m' <- body i m; for_ k (Datatypes.S i) body m'
  end.

Section block.
Context (size : nat).
Notation wr := (wr size).

(** a[i] += v *)
Definition incr (m : mem) (i : nat) (v : F) : option mem := do x <- m i; wr m i (x + v).

(** ** SolveTridiagonalSystem, Spline.cpp 199-226. The arguments are the five pointers. *)
(** Lines 205-208. *)
Definition elim_body (d ud ld vec i : nat) (m : mem) : option mem :=
  do l <- m (ld + i)%nat; do di <- m (d + i)%nat;
  let coef := (- l) / di in
  do m1 <- incr m (ld + i) (di * coef);
  do u <- m1 (ud + i)%nat; do m2 <- incr m1 (d + (i + 1)) (u * coef);
  do v <- m2 (vec + i)%nat; incr m2 (vec + (i + 1)) (v * coef).

(** Lines 216-224; [k] passes left, the next one at i = k - 1. The boolean is the return
    value. *)
Fixpoint back (d ud vec s k : nat) (m : mem) : option (mem * bool) :=
  match k with
  | O => Some (m, true)
  | S i =>
      do di <- m (d + i)%nat;
      if fabs di <? fepsv then Some (m, false) else
      do v <- m (vec + i)%nat; do x <- m (s + (i + 1))%nat; do u <- m (ud + i)%nat;
      do m' <- wr m (s + i) ((v - x * u) / di); back d ud vec s i m'
  end.

Definition tridiagonal (d ud ld vec s n : nat) (m : mem) : option (mem * bool) :=
  match n with
  | O => None
  | S n1 =>
      do m1 <- for_ n1 0 (elim_body d ud ld vec) m;
      do dn <- m1 (d + n1)%nat;
      if fabs dn <? fepsv then Some (m1, false) else
      do vn <- m1 (vec + n1)%nat;
      do m2 <- wr m1 (s + n1) (vn / dn); back d ud vec s n1 m2
  end.

(** ** SolvePeriodicSystem, Spline.cpp 228-288. [lc] is the separate block last_column of
    nn - 2 cells; temp is the scalar of that name. *)
Record pstate := mkP { pm : mem; plc : mem; ptemp : F }.
Definition lwr (nn : nat) (m : mem) (i : nat) (v : F) : option mem :=
  if Nat.ltb i (nn - 2) then Some (upd m i v) else None.

(** Lines 238-246. *)
Definition pelim_body (nn d ud ld vec i : nat) (st : pstate) : option pstate :=
  let m := pm st in let lc := plc st in
  do l <- m (ld + (i + 1))%nat; do di <- m (d + i)%nat;
  let coef := (- l) / di in
  do u <- m (ud + i)%nat; do m1 <- incr m (d + (i + 1)) (u * coef);
  do c <- lc i; do lc1 <- lwr nn lc (i + 1) (c * coef);
  do v <- m1 (vec + i)%nat; do m2 <- incr m1 (vec + (i + 1)) (v * coef);
  do di' <- m2 (d + i)%nat;
  let coef := (- ptemp st) / di' in
  do u <- m2 (ud + i)%nat;
  let temp := u * coef in
  do c <- lc1 i; do m3 <- incr m2 (d + (nn - 1)) (c * coef);
  do v <- m3 (vec + i)%nat; do m4 <- incr m3 (vec + (nn - 1)) (v * coef);
  Some (mkP m4 lc1 temp).

(** Lines 275-283; [k] passes left, the next one at i = k. *)
Fixpoint pback (nn d ud vec s k : nat) (lc m : mem) : option (mem * bool) :=
  match k with
  | O => Some (m, true)
  | S i1 =>
      do di <- m (d + i1)%nat;
      if fabs di <? fepsv then Some (m, false) else
      do v <- m (vec + i1)%nat; do xn <- m (s + nn)%nat; do c <- lc i1;
      do x <- m (s + (k + 1))%nat; do u <- m (ud + i1)%nat;
      do m' <- wr m (s + k) ((v - xn * c - x * u) / di); pback nn d ud vec s i1 lc m'
  end.

Definition periodic (d ud ld vec s nn : nat) (m : mem) : option (mem * bool) :=
  if Nat.ltb nn 2 then None (* new realdp[nn - 2] with a negative size *) else
  do temp <- m (ud + (nn - 1))%nat;
  do l0 <- m (ld + 0)%nat; do lc <- lwr nn fresh 0 l0;
  do st <- for_ (nn - 3) 0 (pelim_body nn d ud ld vec) (mkP m lc temp);
  let m := pm st in let lc := plc st in
  (* i = nn - 3, lines 250-259 *)
  let i := (nn - 3)%nat in
  do l <- m (ld + (i + 1))%nat; do di <- m (d + i)%nat;
  let coef := (- l) / di in
  do u <- m (ud + i)%nat; do m <- incr m (d + (i + 1)) (u * coef);
  do c <- lc i; do m <- incr m (ud + (nn - 2)) (c * coef);
  do v <- m (vec + i)%nat; do m <- incr m (vec + (i + 1)) (v * coef);
  do di <- m (d + i)%nat;
  let coef := (- ptemp st) / di in
  do u <- m (ud + i)%nat; do m <- incr m (ld + (nn - 1)) (u * coef);
  do m <- incr m (d + (nn - 1)) (c * coef);
  do v <- m (vec + i)%nat; do m <- incr m (vec + (nn - 1)) (v * coef);
  (* i = nn - 2, lines 262-265 *)
  let i := (nn - 2)%nat in
  do l <- m (ld + (i + 1))%nat; do di <- m (d + i)%nat;
  let coef := (- l) / di in
  do u <- m (ud + i)%nat; do m <- incr m (d + (i + 1)) (u * coef);
  do v <- m (vec + i)%nat; do m <- incr m (vec + (i + 1)) (v * coef);
  (* lines 268-274 *)
  do v <- m (vec + (nn - 1))%nat; do dn <- m (d + (nn - 1))%nat;
  do m <- wr m (s + nn) (v / dn);
  if fabs dn <? fepsv then Some (m, false) else
  do v <- m (vec + (nn - 2))%nat; do xn <- m (s + nn)%nat; do u <- m (ud + (nn - 2))%nat; do d2 <- m (d + (nn - 2))%nat;
  do m <- wr m (s + (nn - 1)) ((v - xn * u) / d2);
  dop ' (m, ok) <- pback nn d ud vec s (nn - 2) lc m;
  if ok : bool then do x <- m (s + nn)%nat; do m <- wr m (s + 0) x; Some (m, true) else Some (m, false).
End block.

(** Y[i] *)
Definition at_ (l : list F) (i : nat) : option F := nth_error l i.

(** ** The coefficient loops: lines 140-146, 186-193, 40-46, 91-98. The block coefs has
    4 (n - 1) cells. *)
Definition coef_uniform (nn : nat) (Y : list F) (h : F) (s : nat) (m : mem) (i : nat) (c : mem) : option mem :=
  let w := wr (4 * nn) in
  do s1 <- m (s + (i + 1))%nat; do s0 <- m (s + i)%nat;
  do c <- w c (0 * nn + i)%nat ((s1 - s0) / lit 6 / h);
  do c <- w c (1 * nn + i)%nat (s0 / lit 2);
  do y1 <- at_ Y (i + 1); do y0 <- at_ Y i;
  do c <- w c (2 * nn + i)%nat ((- s0) * h / lit 2 + (y1 - y0) / h - h * (s1 - s0) / lit 6);
  w c (3 * nn + i)%nat y0.

Definition coef_general (nn : nat) (X Y : list F) (s : nat) (m : mem) (i : nat) (c : mem) : option mem :=
  let w := wr (4 * nn) in
  do x1 <- at_ X (i + 1); do x0 <- at_ X i;
  let hi := x1 - x0 in
  do s1 <- m (s + (i + 1))%nat; do s0 <- m (s + i)%nat;
  do c <- w c (0 * nn + i)%nat ((s1 - s0) / lit 6 / hi);
  do c <- w c (1 * nn + i)%nat (s0 / lit 2);
  do y1 <- at_ Y (i + 1); do y0 <- at_ Y i;
  do c <- w c (2 * nn + i)%nat ((- s0) * hi / lit 2 + (y1 - y0) / hi - hi * (s1 - s0) / lit 6);
  w c (3 * nn + i)%nat (s0 * hi * hi / lit 6 + (y0 - s0 * hi * hi / lit 6)).

(** ** SplineUniformSlopes, Spline.cpp 104-149. The result is coefs and the return value. *)
(** Lines 118-121. *)
Definition fill_uniform (n : nat) (Y : list F) (h : F) (i : nat) (m : mem) : option mem :=
  let d := O in let ud := n in let ld := (2 * n - 1)%nat in let vec := (3 * n - 2)%nat in
  let w := wr (5 * n - 2) in
  do m <- w m (ld + (i - 1))%nat (lit (1#2));
  do m <- w m (d + i)%nat (lit 2);
  do m <- w m (ud + i)%nat (lit (1#2));
  do y2 <- at_ Y (i + 1); do y1 <- at_ Y i; do y0 <- at_ Y (i - 1);
  w m (vec + i)%nat (lit 3 / h * ((y2 - y1) / h - (y1 - y0) / h)).

Definition uniform_slopes (Y : list F) (n : nat) (h : F) : option (mem * bool) :=
  let d := O in let ud := n in let ld := (2 * n - 1)%nat in let vec := (3 * n - 2)%nat in let s := (4 * n - 2)%nat in
  let w := wr (5 * n - 2) in
  if Nat.ltb n 2 then None (* Y[1] or ld[-1] *) else
  let nn := (n - 1)%nat in
  do m <- for_ (nn - 1) 1 (fill_uniform n Y h) fresh;
  do y1 <- at_ Y 1; do y0 <- at_ Y 0;
  let first_d := (y1 - y0) / h in
  do m <- w m (d + 0)%nat (h / lit 3); do m <- w m (ud + 0)%nat (h / lit 6);
  do m <- w m (vec + 0)%nat ((y1 - y0) / h - first_d);
  do yn <- at_ Y nn; do ym <- at_ Y (nn - 1);
  let first_d := (yn - ym) / h in
  do m <- w m (d + nn)%nat (h / lit 3); do m <- w m (ld + (nn - 1))%nat (h / lit 6);
  do m <- w m (vec + nn)%nat (first_d - (yn - ym) / h);
  dop ' (m, ok) <- tridiagonal (5 * n - 2) d ud ld vec s n m;
  if ok : bool then do c <- for_ nn 0 (coef_uniform nn Y h s m) fresh; Some (c, true)
  else Some (fresh, false).

(** ** SplineSlopes, Spline.cpp 151-197. *)
Definition fill_general (n : nat) (X Y : list F) (i : nat) (m : mem) : option mem :=
  let d := O in let ud := n in let ld := (2 * n - 1)%nat in let vec := (3 * n - 2)%nat in
  let w := wr (5 * n - 2) in
  do x2 <- at_ X (i + 1); do x1 <- at_ X i; do x0 <- at_ X (i - 1);
  do m <- w m (ld + (i - 1))%nat ((x1 - x0) / (x2 - x0));
  do m <- w m (d + i)%nat (lit 2);
  do m <- w m (ud + i)%nat ((x2 - x1) / (x2 - x0));
  do y2 <- at_ Y (i + 1); do y1 <- at_ Y i; do y0 <- at_ Y (i - 1);
  w m (vec + i)%nat (lit 6 / (x2 - x0) * ((y2 - y1) / (x2 - x1) - (y1 - y0) / (x1 - x0))).

Definition slopes (X Y : list F) (n : nat) : option (mem * bool) :=
  let d := O in let ud := n in let ld := (2 * n - 1)%nat in let vec := (3 * n - 2)%nat in let s := (4 * n - 2)%nat in
  let w := wr (5 * n - 2) in
  if Nat.ltb n 2 then None else
  let nn := (n - 1)%nat in
  do m <- for_ (nn - 1) 1 (fill_general n X Y) fresh;
  do y1 <- at_ Y 1; do y0 <- at_ Y 0; do x1 <- at_ X 1; do x0 <- at_ X 0;
  let first_d := (y1 - y0) / (x1 - x0) in
  do m <- w m (d + 0)%nat ((x1 - x0) / lit 3); do m <- w m (ud + 0)%nat ((x1 - x0) / lit 6);
  do m <- w m (vec + 0)%nat ((y1 - y0) / (x1 - x0) - first_d);
  do yn <- at_ Y nn; do ym <- at_ Y (nn - 1); do xn <- at_ X nn; do xm <- at_ X (nn - 1);
  let first_d := (yn - ym) / (xn - xm) in
  do m <- w m (d + nn)%nat ((xn - xm) / lit 3); do m <- w m (ld + (nn - 1))%nat ((xn - xm) / lit 6);
  do m <- w m (vec + nn)%nat (first_d - (yn - ym) / (xn - xm));
  dop ' (m, ok) <- tridiagonal (5 * n - 2) d ud ld vec s n m;
  if ok : bool then do c <- for_ nn 0 (coef_general nn X Y s m) fresh; Some (c, true)
  else Some (fresh, false).

(** ** SplineUniformPeriodic, Spline.cpp 7-49. The warning (17-20) is left out. *)
Definition pfill_uniform (nn : nat) (Y : list F) (h : F) (i : nat) (m : mem) : option mem :=
  let d := O in let ud := nn in let ld := (2 * nn - 1)%nat in let vec := (3 * nn - 2)%nat in
  let w := wr (5 * nn - 1) in
  do m <- w m (ld + i)%nat (lit (1#2));
  do m <- w m (d + i)%nat (lit 2);
  do m <- w m (ud + i)%nat (lit (1#2));
  do y2 <- at_ Y (if Nat.eqb i (nn - 1) then 1 else (i + 2)%nat); do y1 <- at_ Y (i + 1); do y0 <- at_ Y i;
  w m (vec + i)%nat (lit 3 / h * ((y2 - y1) / h - (y1 - y0) / h)).

Definition uniform_periodic (Y : list F) (n : nat) (h : F) : option (mem * bool) :=
  let nn := (n - 1)%nat in
  let d := O in let ud := nn in let ld := (2 * nn - 1)%nat in let vec := (3 * nn - 2)%nat in let s := (4 * nn - 2)%nat in
  if Nat.ltb n 2 then None else
  do m <- for_ nn 0 (pfill_uniform nn Y h) fresh;
  dop ' (m, ok) <- periodic (5 * nn - 1) d ud ld vec s nn m;
  if ok : bool then
    do x <- m (s + nn)%nat; do m <- wr (5 * nn - 1) m (s + 0) x;
    do c <- for_ nn 0 (coef_uniform nn Y h s m) fresh; Some (c, true)
  else Some (fresh, false).

(** ** SplinePeriodic, Spline.cpp 51-102. *)
Definition pfill_general (nn : nat) (X Y : list F) (i : nat) (m : mem) : option mem :=
  let d := O in let ud := nn in let ld := (2 * nn - 1)%nat in let vec := (3 * nn - 2)%nat in
  let w := wr (5 * nn - 1) in
  do x1 <- at_ X (i + 1); do x0 <- at_ X i; do y1 <- at_ Y (i + 1); do y0 <- at_ Y i;
  if Nat.eqb i (nn - 1) then
    do b <- at_ X 1; do a <- at_ X 0; do yb <- at_ Y 1; do ya <- at_ Y 0;
    do m <- w m (ld + i)%nat ((x1 - x0) / (b - a + x1 - x0));
    do m <- w m (d + i)%nat (lit 2);
    do m <- w m (ud + i)%nat ((b - a) / (b - a + x1 - x0));
    w m (vec + i)%nat (lit 6 / (b - a + x1 - x0) * ((yb - ya) / (b - a) - (y1 - y0) / (x1 - x0)))
  else
    do x2 <- at_ X (i + 2); do y2 <- at_ Y (i + 2);
    do m <- w m (ld + i)%nat ((x1 - x0) / (x2 - x0));
    do m <- w m (d + i)%nat (lit 2);
    do m <- w m (ud + i)%nat ((x2 - x1) / (x2 - x0));
    w m (vec + i)%nat (lit 6 / (x2 - x0) * ((y2 - y1) / (x2 - x1) - (y1 - y0) / (x1 - x0))).

Definition general_periodic (X Y : list F) (n : nat) : option (mem * bool) :=
  let nn := (n - 1)%nat in
  let d := O in let ud := nn in let ld := (2 * nn - 1)%nat in let vec := (3 * nn - 2)%nat in let s := (4 * nn - 2)%nat in
  if Nat.ltb n 2 then None else
  do m <- for_ nn 0 (pfill_general nn X Y) fresh;
  dop ' (m, ok) <- periodic (5 * nn - 1) d ud ld vec s nn m;
  if ok : bool then
    do x <- m (s + nn)%nat; do m <- wr (5 * nn - 1) m (s + 0) x;
    do c <- for_ nn 0 (coef_general nn X Y s m) fresh; Some (c, true)
  else Some (fresh, false).

(** ** Evaluation *)
(** The scan, lines 295-300 (also 353-359, 395-400): [k] entries of breaks left, [i] passed. *)
Fixpoint scan (breaks : list F) (b0 t : F) (i : nat) : nat :=
  match breaks with
  | [] => i
  | b :: bs => if t - (b - b0) >=? - fepsv then scan bs b0 t (S i) else i
  end.
(** i--, then clamped to [0, nn - 1]. *)
Definition piece_index (breaks : list F) (N : nat) (b0 t : F) : nat :=
  Nat.min (scan (firstn N breaks) b0 t 0 - 1) (N - 2).

(** ValSpline, lines 290-304. *)
Definition val_spline (coefs : mem) (breaks : list F) (N : nat) (t : F) : option F :=
  let nn := (N - 1)%nat in
  do b0 <- at_ breaks 0;
  let i := piece_index breaks N b0 t in
  do bi <- at_ breaks i;
  let t := t - bi in
  do c0 <- coefs (0 * nn + i)%nat; do c1 <- coefs (1 * nn + i)%nat;
  do c2 <- coefs (2 * nn + i)%nat; do c3 <- coefs (3 * nn + i)%nat;
  Some (((c0 * t + c1) * t + c2) * t + c3).

(** ValFirstDeri, lines 348-363. *)
Definition val_first (coefs : mem) (breaks : list F) (N : nat) (t : F) : option F :=
  let nn := (N - 1)%nat in
  do b0 <- at_ breaks 0;
  let i := piece_index breaks N b0 t in
  do bi <- at_ breaks i;
  let t := t - bi in
  do c0 <- coefs (0 * nn + i)%nat; do c1 <- coefs (1 * nn + i)%nat; do c2 <- coefs (2 * nn + i)%nat;
  Some ((c0 * t + c1) * t + c2).

(** ValSecondDeri, lines 390-404. *)
Definition val_second (coefs : mem) (breaks : list F) (N : nat) (t : F) : option F :=
  let nn := (N - 1)%nat in
  do b0 <- at_ breaks 0;
  let i := piece_index breaks N b0 t in
  do bi <- at_ breaks i;
  let t := t - bi in
  do c0 <- coefs (0 * nn + i)%nat; do c1 <- coefs (1 * nn + i)%nat;
  Some (c0 * t + c1).

(** The uniform variants (306-320, 334-346, 376-388). [cast] is static_cast<integer>: None if
    the value does not fit.  The while loop has [fuel] passes at most (None when exhausted). *)
Section uniform.
Context (cast : F -> option Z).
Definition fz (i : Z) : F := lit (inject_Z i).
Fixpoint uscan (fuel : nat) (h t : F) (i : Z) : option Z :=
  match fuel with
  | O => None
  | S fuel => if t - fz i * h >=? - fepsv then uscan fuel h t (i + 1) else Some i
  end.
Definition uindex (fuel : nat) (N : nat) (h t : F) : option nat :=
  do i0 <- cast (t / h); do i <- uscan fuel h t i0;
  Some (Nat.min (Z.to_nat (i - 1)) (N - 2)).
Definition val_uniform (fuel : nat) (coefs : mem) (N : nat) (h t : F) : option F :=
  let nn := (N - 1)%nat in
  do i <- uindex fuel N h t;
  let t := t - fz (Z.of_nat i) * h in
  do c0 <- coefs (0 * nn + i)%nat; do c1 <- coefs (1 * nn + i)%nat;
  do c2 <- coefs (2 * nn + i)%nat; do c3 <- coefs (3 * nn + i)%nat;
  Some (((c0 * t + c1) * t + c2) * t + c3).
Definition val_first_uniform (fuel : nat) (coefs : mem) (N : nat) (h t : F) : option F :=
  let nn := (N - 1)%nat in
  do i <- uindex fuel N h t;
  let t := t - fz (Z.of_nat i) * h in
  do c0 <- coefs (0 * nn + i)%nat; do c1 <- coefs (1 * nn + i)%nat; do c2 <- coefs (2 * nn + i)%nat;
  Some ((c0 * t + c1) * t + c2).
Definition val_second_uniform (fuel : nat) (coefs : mem) (N : nat) (h t : F) : option F :=
  let nn := (N - 1)%nat in
  do i <- uindex fuel N h t;
  let t := t - fz (Z.of_nat i) * h in
  do c0 <- coefs (0 * nn + i)%nat; do c1 <- coefs (1 * nn + i)%nat;
  Some (c0 * t + c1).
End uniform.

(** ** Derivative coefficients *)
(** FirstDeri, lines 322-332: a block of 3 (N - 1) cells. *)
Definition first_body (nn : nat) (coefs : mem) (i : nat) (c : mem) : option mem :=
  let w := wr (3 * nn) in
  do c0 <- coefs (0 * nn + i)%nat; do c <- w c (0 * nn + i)%nat (c0 * lit 3);
  do c1 <- coefs (1 * nn + i)%nat; do c <- w c (1 * nn + i)%nat (c1 * lit 2);
  do c2 <- coefs (2 * nn + i)%nat; w c (2 * nn + i)%nat c2.
Definition first_deri (coefs : mem) (N : nat) : option mem :=
  for_ (N - 1) 0 (first_body (N - 1) coefs) fresh.
(** SecondDeri, lines 365-374. *)
Definition second_body (nn : nat) (coefs : mem) (i : nat) (c : mem) : option mem :=
  let w := wr (2 * nn) in
  do c0 <- coefs (0 * nn + i)%nat; do c <- w c (0 * nn + i)%nat (c0 * lit 6);
  do c1 <- coefs (1 * nn + i)%nat; w c (1 * nn + i)%nat (c1 * lit 2).
Definition second_deri (coefs : mem) (N : nat) : option mem :=
  for_ (N - 1) 0 (second_body (N - 1) coefs) fresh.
End spline.
