(** * ObjModel: the objective functions and gradients of NOTEARS and DYNOTEARS over the real numbers.

    Vectors and matrices are functions of their indexes; the data [X] has [n] rows and [d] columns.
    [scipy.linalg.expm] is the exact exponential; rounding is not modelled. *)
From Coq Require Import Arith Reals.
From Coquelicot Require Import Coquelicot.
From Verif Require Import AcycModel.
Local Open Scope R_scope.

(** notears.py:381, 472; dynotears.py:407 *)
Definition rvec : Type := nat -> R.

(** [w.reshape([_, d])] of the vector from position [o] on (notears.py:392, 486-487; dynotears.py:315-328) *)
Definition mat_at (o d : nat) (w : rvec) : rmat := fun i j => w (o + i * d + j)%nat.
(** [M.flatten()] for [d] columns (notears.py:412, 521-522; dynotears.py:464) *)
Definition flat (d : nat) (M : rmat) : rvec := fun p => M (p / d)%nat (p mod d)%nat.

(** [slin.expm(A)] (notears.py:379, 410, 515; dynotears.py:405, 446) *)
Definition mexp (d : nat) (A : rmat) : rmat := fun i j => Series (fun k => mpow d A k i j / INR (fact k)).

(** notears.py:393, 489, 490; dynotears.py:318, 329, 424 *)
Definition msub (A B : rmat) : rmat := fun i j => A i j - B i j.
(** notears.py:409, 514; dynotears.py:450, 459 *)
Definition mT (A : rmat) : rmat := fun i j => A j i.

(** [np.square(np.linalg.norm(M, "fro"))] (notears.py:393, 490; dynotears.py:422-426) *)
Definition norm2 (n d : nat) (M : rmat) : R := Rsqr (sqrt (rsum n (fun r => rsum d (fun c => M r c * M r c)))).

(** notears.py:367-379 and 458-470; dynotears.py:393-405 _h *)
Definition h_fun (d : nat) (W : rmat) : R := tr d (mexp d (squared W)) - INR d.

(** notears.py:393 and 490: [0.5 / n * np.square(np.linalg.norm(X.dot(np.eye(d, d) - W), "fro"))] *)
Definition loss (n d : nat) (X W : rmat) : R := 0.5 / INR n * norm2 n d (mmul d X (msub mid W)).

(** notears.py:409-411 and 514-519: loss_grad, E and obj_grad *)
Definition obj_grad (n d : nat) (X : rmat) (rho alpha : R) (W : rmat) : rmat :=
  let E := mexp d (squared W) in
  fun i j => -1 / INR n * mmul d (mmul n (mT X) X) (msub mid W) i j + (rho * (tr d E - INR d) + alpha) * E j i * W i j * 2.

(** notears.py:381-395 _func *)
Definition func (n d : nat) (X : rmat) (rho alpha : R) (w : rvec) : R :=
  let W := mat_at 0 d w in
  let h := h_fun d W in
  loss n d X W + 0.5 * rho * h * h + alpha * h.

(** notears.py:397-412 _grad *)
Definition grad (n d : nat) (X : rmat) (rho alpha : R) (w : rvec) : rvec := flat d (obj_grad n d X rho alpha (mat_at 0 d w)).

(** notears.py:472-492 _func with the lasso *)
Definition lasso_mat (d : nat) (w : rvec) : rmat := msub (mat_at 0 d w) (mat_at (d * d) d w).
(** notears.py:472-492 *)
Definition lasso_func (n d : nat) (X : rmat) (beta rho alpha : R) (w : rvec) : R :=
  let W := lasso_mat d w in
  let h := h_fun d W in
  loss n d X W + 0.5 * rho * h * h + alpha * h + beta * rsum (2 * (d * d)) w.

(** notears.py:494-524 _grad with the lasso *)
Definition lasso_grad (n d : nat) (X : rmat) (beta rho alpha : R) (w : rvec) : rvec :=
  let G := flat d (obj_grad n d X rho alpha (lasso_mat d w)) in
  fun p => if p <? d * d then G p + beta else - G (p - d * d)%nat + beta.

(** dynotears.py:301-330 _reshape_wa: the second matrix has [p * d] rows; row k * d + i is lag k + 1 of variable i. *)
Definition dyn_w (d : nat) (v : rvec) : rmat := lasso_mat d v.
(** dynotears.py:319-329 *)
Definition dyn_a (d : nat) (v : rvec) : rmat :=
  fun m j => let k := (m / d)%nat in let i := (m mod d)%nat in
    mat_at (2 * (d * d) + 2 * k * (d * d)) d v i j - mat_at (2 * (d * d) + (2 * k + 1) * (d * d)) d v i j.

(** [X.dot(np.eye(d_vars, d_vars) - _w_mat) - Xlags.dot(_a_mat)] (dynotears.py:424) *)
Definition dyn_resid (d p : nat) (X Y : rmat) (v : rvec) : rmat :=
  msub (mmul d X (msub mid (dyn_w d v))) (mmul (p * d) Y (dyn_a d v)).

(** dynotears.py:407-432 _func *)
Definition dyn_func (n d p : nat) (X Y : rmat) (lambda_w lambda_a rho alpha : R) (v : rvec) : R :=
  let h := h_fun d (dyn_w d v) in
  0.5 / INR n * norm2 n d (dyn_resid d p X Y v) + 0.5 * rho * h * h + alpha * h +
  (lambda_w * rsum (2 * (d * d)) v + lambda_a * rsum (2 * p * (d * d)) (fun q => v (2 * (d * d) + q)%nat)).

(** dynotears.py:434-469 _grad: [np.append(obj_grad_w, -obj_grad_w, axis=0).flatten()], then for every lag the
    rows of obj_grad_a and their negatives. *)
Definition dyn_grad (n d p : nat) (X Y : rmat) (lambda_w lambda_a rho alpha : R) (v : rvec) : rvec :=
  let E := mexp d (squared (dyn_w d v)) in
  let D := dyn_resid d p X Y v in
  let obj_w : rmat := fun i j => -1 / INR n * mmul n (mT X) D i j + (rho * (tr d E - INR d) + alpha) * E j i * dyn_w d v i j * 2 in
  let obj_a : rmat := fun m j => -1 / INR n * mmul n (mT Y) D m j in
  fun q =>
    if q <? 2 * (d * d) then (if q <? d * d then flat d obj_w q else - flat d obj_w (q - d * d)%nat) + lambda_w
    else
      let k := ((q - 2 * (d * d)) / (2 * (d * d)))%nat in
      let r := ((q - 2 * (d * d)) mod (2 * (d * d)))%nat in
      (if r <? d * d then flat d obj_a (k * (d * d) + r)%nat else - flat d obj_a (k * (d * d) + (r - d * d))%nat) + lambda_a.
