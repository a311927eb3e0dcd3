(** The Kerr spacetime and the action of the scalar field, transcribed from Documentation/main.tex
    lines 94-162.  Nothing here refers to the model of the code.
    Coordinates: v, r, theta, phi (ingoing Eddington-Finkelstein, as documented). *)
From Coq Require Import Reals.
From Coquelicot Require Import Coquelicot.
From Verif Require Import EomSpec LegSpec.
Local Open Scope R_scope.

Inductive coord := cv | cr | cth | cph.
Record event := Ev { xv : R; xr : R; xth : R; xph : R }.
Definition get (x : event) (m : coord) : R := match m with cv => xv x | cr => xr x | cth => xth x | cph => xph x end.
Definition upd (x : event) (m : coord) (t : R) : event :=
  match m with
  | cv => Ev t (xr x) (xth x) (xph x) | cr => Ev (xv x) t (xth x) (xph x)
  | cth => Ev (xv x) (xr x) t (xph x) | cph => Ev (xv x) (xr x) (xth x) t
  end.
(** partial derivative of a function of the event *)
Definition pd (m : coord) (F : event -> R) (x : event) : R := Derive (fun t => F (upd x m t)) (get x m).
Definition sum4 (f : coord -> R) : R := f cv + f cr + f cth + f cph.
Definition delta (m n : coord) : R :=
  match m, n with cv, cv => 1 | cr, cr => 1 | cth, cth => 1 | cph, cph => 1 | _, _ => 0 end.

(** main.tex:140-158 with the coefficient of dphi^2 multiplied by sin^2 theta (without that factor the
    printed line element is not the Kerr metric, see C70_printed_metric_refuted); off-diagonal
    components are half the coefficient of the product of differentials. *)
Definition dphi2_printed (M a : R) (x : event) : R :=
  a ^ 2 + xr x ^ 2 + 2 * M * a ^ 2 * (xr x * sin (xth x) ^ 2 / Sigma a (xr x) (xth x)).
Definition metric (M a : R) (x : event) (m n : coord) : R :=
  let r := xr x in let th := xth x in let S := Sigma a r th in
  match m, n with
  | cv, cv => - (1 - 2 * M * r / S)
  | cv, cr | cr, cv => 2 * M * r / S
  | cv, cph | cph, cv => - (2 * M * r / S) * (a * sin th ^ 2)
  | cr, cr => 1 + 2 * M * r / S
  | cr, cph | cph, cr => - (1 + 2 * M * r / S) * (a * sin th ^ 2)
  | cth, cth => S
  | cph, cph => dphi2_printed M a x * sin th ^ 2
  | _, _ => 0
  end.
(** the line element exactly as printed *)
Definition printed_metric (M a : R) (x : event) (m n : coord) : R :=
  match m, n with cph, cph => dphi2_printed M a x | _, _ => metric M a x m n end.
(** inverse metric, read off the printed (grad psi)^2 (main.tex:199-219) *)
Definition inverse_metric (M a : R) (x : event) (m n : coord) : R :=
  let r := xr x in let th := xth x in let S := Sigma a r th in
  match m, n with
  | cv, cv => - (1 + 2 * M * r / S)
  | cv, cr | cr, cv => 2 * M * r / S
  | cr, cr => Delta M a r / S
  | cr, cph | cph, cr => a / S
  | cth, cth => 1 / S
  | cph, cph => 1 / (S * sin th ^ 2)
  | _, _ => 0
  end.
(** Leibniz determinant of the 4 x 4 matrix, expanded along the first row *)
Definition det3 (g : coord -> coord -> R) (i j k p q r : coord) : R :=
  g i p * (g j q * g k r - g j r * g k q) - g i q * (g j p * g k r - g j r * g k p) + g i r * (g j p * g k q - g j q * g k p).
Definition det4 (g : coord -> coord -> R) : R :=
  g cv cv * det3 g cr cth cph cr cth cph - g cv cr * det3 g cr cth cph cv cth cph
  + g cv cth * det3 g cr cth cph cv cr cph - g cv cph * det3 g cr cth cph cv cr cth.
(** sqrt(-det g) for 0 < theta < pi, see C70_volume_element *)
Definition vol (a : R) (x : event) : R := Sigma a (xr x) (xth x) * sin (xth x).

(** (1/sqrt(-g)) d_mu ( sqrt(-g) g^{mu nu} d_nu psi ) *)
Definition covariant_box (M a : R) (psi : event -> R) (x : event) : R :=
  / vol a x * sum4 (fun m => pd m (fun y => vol a y * sum4 (fun n => inverse_metric M a y m n * pd n psi y)) x).
(** g^{mu nu} d_mu psi d_nu psi *)
Definition covariant_grad2 (M a : R) (psi : event -> R) (x : event) : R :=
  sum4 (fun m => sum4 (fun n => inverse_metric M a x m n * pd m psi x * pd n psi x)).

(** main.tex:98-106: the Lagrangian density as a function of the event, the field value u and the
    field gradient q; the action is its integral over all events *)
Definition lagrangian (t : theory) (M a : R) (x : event) (u : R) (q : coord -> R) : R :=
  vol a x * (- (1 / 2) * kfun t u * sum4 (fun m => sum4 (fun n => inverse_metric M a x m n * q m * q n)) - Vfun t u).
Definition updq (q : coord -> R) (m : coord) (s : R) : coord -> R :=
  fun n => match m, n with cv, cv => s | cr, cr => s | cth, cth => s | cph, cph => s | _, _ => q n end.
(** the Euler-Lagrange equation of the action at the event x:
    d_mu (dL / d(d_mu psi)) = dL / d psi *)
Definition euler_lagrange (t : theory) (M a : R) (psi : event -> R) (x : event) : Prop :=
  sum4 (fun m => pd m (fun y => Derive (fun s => lagrangian t M a y (psi y) (updq (fun n => pd n psi y) m s)) (pd m psi y)) x)
  = Derive (fun u => lagrangian t M a x u (fun n => pd n psi x)) (psi x).

(** psi has first and second partial derivatives at x and the second ones are symmetric *)
Definition twice_diff (psi : event -> R) (x : event) : Prop :=
  (forall m, ex_derive (fun s => psi (upd x m s)) (get x m)) /\
  (forall m n, ex_derive (fun s => pd n psi (upd x m s)) (get x m)) /\
  (forall m n, pd m (pd n psi) x = pd n (pd m psi) x).

(** the value and the derivatives of psi at x that enter the field equation *)
Definition event_jet (psi : event -> R) (x : event) : jet :=
  let f := fun th ph => psi (Ev (xv x) (xr x) th ph) in
  {| EomSpec.psi := psi x; psi_v := pd cv psi x; psi_r := pd cr psi x; psi_vr := pd cr (pd cv psi) x;
     psi_rr := pd cr (pd cr psi) x; psi_ph := pd cph psi x; psi_rph := pd cr (pd cph psi) x;
     lap := laplacian f (xth x) (xph x); gradsq := gradient_squared f (xth x) (xph x) |}.
