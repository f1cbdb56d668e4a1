(** Independent specification of polynomial limb darkening and of the overlap area. *)
From Coq Require Import Reals List.
From Coquelicot Require Import Coquelicot.
Import ListNotations.
Open Scope R_scope.

(** Limb-darkened intensity at mu = z:  1 - u_1 (1-z) - u_2 (1-z)^2 - ... *)
Fixpoint ld_sum (u : list R) (n : nat) (z : R) : R :=
  match u with
  | [] => 0
  | c :: u' => c * (1 - z) ^ n + ld_sum u' (S n) z
  end.
Definition intensity (u : list R) (z : R) : R := 1 - ld_sum u 1 z.

(** Disk-integrated flux: annuli of radius rho, where z = sqrt(1 - rho^2). *)
Definition disk_flux (u : list R) : R :=
  RInt (fun rho => 2 * PI * rho * intensity u (sqrt (1 - rho ^ 2))) 0 1.

(** sum_i 2 u_i / ((i+1)(i+2)) *)
Fixpoint ld_norm_sum (u : list R) (n : nat) : R :=
  match u with
  | [] => 0
  | c :: u' => 2 * c / ((INR n + 1) * (INR n + 2)) + ld_norm_sum u' (S n)
  end.

(** Agol et al. (2020) Green's basis. *)
Definition gtilde (n : nat) (z : R) : R :=
  match n with
  | O => 1
  | S O => z
  | S (S m) => (INR n + 2) * z ^ n - INR n * z ^ m
  end.
Fixpoint gsum (g : list R) (n : nat) (z : R) : R :=
  match g with
  | [] => 0
  | c :: g' => c * gtilde n z + gsum g' (S n) z
  end.

(** Area of the intersection of the unit disk with the disk of radius r centred at (b,0):
    the line at abscissa x meets the unit disk in |y| <= sqrt(1-x^2) and the other disk in
    |y| <= sqrt(r^2-(x-b)^2). *)
Definition half_chord (c R0 x : R) : R := sqrt (Rmax 0 (R0 ^ 2 - (x - c) ^ 2)).
Definition overlap_area (b r : R) : R :=
  RInt (fun x => 2 * Rmin (half_chord 0 1 x) (half_chord b r x)) (-1) 1.
