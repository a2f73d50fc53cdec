(** * Specification: one ADMM iteration of SolverCSQP on plain matrices.

    For the constrained subproblem
      min 1/2 |(dx,du)|^2_H + g'(dx,du)   s.t. linearised dynamics,
                                           lb - g <= Gx dx + Gu du <= ub - g
    with multiplier y of the constraint rows.  Nothing here refers to the
    backward or forward passes. *)
From Coq Require Import ZArith.
Set Warnings "-notation-overridden,-ambiguous-paths".
From mathcomp Require Import all_ssreflect all_algebra.
From Verif Require Import Eigen EigenExact Problem LQSpec SubQP.

Set Implicit Arguments.
Unset Strict Implicit.
Unset Printing Implicit Defensive.

Import GRing.Theory Num.Theory.
Local Open Scope ring_scope.

Section Spec.
Variable F : realFieldType.
Variable sq : F -> F.
Notation E := (ExactE sq).
Variable M : manifold E.
Notation n := (mndx M).
Notation node := (node M).
Notation tnode := (tnode M).

(** ** What the primal step may change: the value functions and the new primal
    point (dx~, du~).  The problem data, the proximal centre (dx, du), z, y and
    the penalties are those of the previous state. *)
Definition primal_node (nd nd' : node) : Prop :=
  exists v d u, nd' = @mkNode E M (nm nd) (pt nd) (mem nd) (der nd) (fs nd) v (dir nd)
    (mkAdmm d u (az (adm nd)) (azp (adm nd)) (azr (adm nd)) (ay (adm nd)) (arho (adm nd)) (airho (adm nd))).
Definition primal_tnode (tn tn' : tnode) : Prop :=
  exists A v d, tn' = @mkTnode E M (tm tn) (tx tn) (txt tn) (tme tn) (tder tn) (tfs tn) A v (tdx tn) (tlam tn)
    d (taz tn) (tazp tn) (tazr tn) (tay tn) (tarho tn) (tairho tn).
Definition primal_step (t t' : traj M) : Prop :=
  List.Forall2 primal_node (run t) (run t') /\ primal_tnode (trm t) (trm t').

(** ** The dual step.  A node holds the new primal point (dx~, du~) and the old
    z, y; [lo], [hi] are the bounds of a row, None when infinite. *)
Definition in_box (lo hi : option F) (g z : F) : Prop :=
  (forall b, lo = Some b -> b - g <= z) /\ (forall b, hi = Some b -> z <= b - g).
(** nearest point of the box *)
Definition project (lo hi : option F) (g v : F) : F :=
  let v1 := if lo is Some b then Num.max v (b - g) else v in
  if hi is Some b then Num.min v1 (b - g) else v1.
Section Rows.
Variable m : nat.
Variables (lo hi : 'cV[option F]_m) (alpha : F) (g Cd z y rho irho : 'cV[F]_m).
Definition relaxed : 'cV[F]_m := alpha *: Cd + (1 - alpha) *: z.
Definition new_z : 'cV[F]_m :=
  \matrix_(i, j) project (lo i j) (hi i j) (g i j) (relaxed i j + y i j * irho i j).
Definition new_y : 'cV[F]_m := y + had rho (relaxed - new_z).
(** combination of primal residual and change of z in the stationarity defect *)
Definition mixed_res : 'cV[F]_m := had rho ((1 - alpha) *: (Cd - z) + (new_z - z)).
End Rows.
Variable alpha : F.
Definition row_Cd (nd : node) : 'cV[F]_(ng (nm nd)) :=
  (Gx (der nd) : 'M[F]_(ng (nm nd), n)) *m (dxt (adm nd) : 'cV[F]_n)
  + (Gu (der nd) : 'M[F]_(ng (nm nd), nu (nm nd))) *m (dut (adm nd) : 'cV[F]_(nu (nm nd))).
Definition row_Cd_t (tn : tnode) : 'cV[F]_(tng (tm tn)) :=
  (tGx (tder tn) : 'M[F]_(tng (tm tn), n)) *m (tdxt tn : 'cV[F]_n).
Definition node_z (nd : node) : 'cV[F]_(ng (nm nd)) :=
  @new_z (ng (nm nd)) (alb (nm nd)) (aub (nm nd)) alpha (ag (nm nd) (mem nd)) (row_Cd nd)
    (az (adm nd)) (ay (adm nd)) (airho (adm nd)).
Definition node_y (nd : node) : 'cV[F]_(ng (nm nd)) :=
  @new_y (ng (nm nd)) (alb (nm nd)) (aub (nm nd)) alpha (ag (nm nd) (mem nd)) (row_Cd nd)
    (az (adm nd)) (ay (adm nd)) (arho (adm nd)) (airho (adm nd)).
Definition node_res (nd : node) : 'cV[F]_(ng (nm nd)) :=
  @mixed_res (ng (nm nd)) (alb (nm nd)) (aub (nm nd)) alpha (ag (nm nd) (mem nd)) (row_Cd nd)
    (az (adm nd)) (ay (adm nd)) (arho (adm nd)) (airho (adm nd)).
Definition tnode_z (tn : tnode) : 'cV[F]_(tng (tm tn)) :=
  @new_z (tng (tm tn)) (tlb (tm tn)) (tub (tm tn)) alpha (tg (tm tn) (tme tn)) (row_Cd_t tn)
    (taz tn) (tay tn) (tairho tn).
Definition tnode_y (tn : tnode) : 'cV[F]_(tng (tm tn)) :=
  @new_y (tng (tm tn)) (tlb (tm tn)) (tub (tm tn)) alpha (tg (tm tn) (tme tn)) (row_Cd_t tn)
    (taz tn) (tay tn) (tarho tn) (tairho tn).
Definition tnode_res (tn : tnode) : 'cV[F]_(tng (tm tn)) :=
  @mixed_res (tng (tm tn)) (tlb (tm tn)) (tub (tm tn)) alpha (tg (tm tn) (tme tn)) (row_Cd_t tn)
    (taz tn) (tay tn) (tarho tn) (tairho tn).
(** after the dual step (and a possible change of the penalties) *)
Definition dual_node (nd nd' : node) : Prop :=
  exists zp zr r ir, nd' = @mkNode E M (nm nd) (pt nd) (mem nd) (der nd) (fs nd) (val nd)
    (mkDirs (dxt (adm nd)) (dut (adm nd)) (lam (dir nd)))
    (mkAdmm (dxt (adm nd)) (dut (adm nd)) (node_z nd) zp zr (node_y nd) r ir).
Definition dual_tnode (tn tn' : tnode) : Prop :=
  exists zp zr r ir, tn' = @mkTnode E M (tm tn) (tx tn) (txt tn) (tme tn) (tder tn) (tfs tn) (tVxx tn) (tVx tn)
    (tdxt tn) (tlam tn) (tdxt tn) (tnode_z tn) zp zr (tnode_y tn) r ir.
Definition dual_step (t t' : traj M) : Prop :=
  List.Forall2 dual_node (run t) (run t') /\ dual_tnode (trm t) (trm t').

(** ** The constrained subproblem and its stationarity conditions.  [con_stage]
    reads the exposed direction dx_, du_, lag_mul_ and y_; stationarity is the
    KKT system of an LQ problem whose gradients contain G'y. *)
Definition con_stage (preg dreg : F) (first : bool) (nd : node) (f : 'cV[F]_n) : stage F n :=
  let y : 'cV[F]_(ng (nm nd)) := ay (adm nd) in
  @mkStage F n (nu (nm nd))
    (Fx (der nd)) (Fu (der nd))
    ((Lx (der nd) : 'cV[F]_n) + (eGx first nd)^T *m y)
    ((Lu (der nd) : 'cV[F]_(nu (nm nd))) + (Gu (der nd) : 'M[F]_(ng (nm nd), nu (nm nd)))^T *m y)
    ((Lxx (der nd) : 'M[F]_n) + preg%:M) (Lxu (der nd)) ((Luu (der nd) : 'M[F]_(nu (nm nd))) + dreg%:M)
    f (dx (dir nd)) (du (dir nd)) (lam (dir nd)).
Definition con_final (preg : F) (tn : tnode) : final F n :=
  mkFinal ((tLxx (tder tn) : 'M[F]_n) + preg%:M)
    ((tLx (tder tn) : 'cV[F]_n) + (tGx (tder tn) : 'M[F]_(tng (tm tn), n))^T *m (tay tn : 'cV[F]_(tng (tm tn))))
    (tdx tn) (tlam tn).
Fixpoint con_stages (preg dreg : F) (first : bool) (l : seq node) (tn : tnode) : seq (stage F n) :=
  match l with
  | [::] => [::]
  | nd :: l' => con_stage preg dreg first nd (hd_fs l' tn) :: con_stages preg dreg false l' tn
  end.
(** the stages after the iteration, seen from the node before the dual step:
    direction dx~, multipliers node_y and V_x + V_xx dx~ *)
Definition it_stage (sigma preg dreg : F) (first : bool) (nd : node) (f : 'cV[F]_n) : stage F n :=
  let y : 'cV[F]_(ng (nm nd)) := node_y nd in
  @mkStage F n (nu (nm nd))
    (Fx (der nd)) (Fu (der nd))
    ((Lx (der nd) : 'cV[F]_n) + (eGx first nd)^T *m y
      + (sigma *: ((dxt (adm nd) : 'cV[F]_n) - dx (dir nd)) + (eGx first nd)^T *m node_res nd))
    ((Lu (der nd) : 'cV[F]_(nu (nm nd))) + (Gu (der nd) : 'M[F]_(ng (nm nd), nu (nm nd)))^T *m y
      + (sigma *: ((dut (adm nd) : 'cV[F]_(nu (nm nd))) - du (dir nd))
         + (Gu (der nd) : 'M[F]_(ng (nm nd), nu (nm nd)))^T *m node_res nd))
    ((Lxx (der nd) : 'M[F]_n) + preg%:M) (Lxu (der nd)) ((Luu (der nd) : 'M[F]_(nu (nm nd))) + dreg%:M)
    f (dxt (adm nd)) (dut (adm nd))
    ((Vx (val nd) : 'cV[F]_n) + (Vxx (val nd) : 'M[F]_n) *m (dxt (adm nd) : 'cV[F]_n)).
Definition it_final (sigma preg : F) (tn : tnode) : final F n :=
  let G : 'M[F]_(tng (tm tn), n) := tGx (tder tn) in
  mkFinal ((tLxx (tder tn) : 'M[F]_n) + preg%:M)
    ((tLx (tder tn) : 'cV[F]_n) + G^T *m tnode_y tn
      + (sigma *: ((tdxt tn : 'cV[F]_n) - tdx tn) + G^T *m tnode_res tn))
    (tdxt tn) ((tVx tn : 'cV[F]_n) + (tVxx tn : 'M[F]_n) *m (tdxt tn : 'cV[F]_n)).
Fixpoint it_stages (sigma preg dreg : F) (first : bool) (l : seq node) (tn : tnode) : seq (stage F n) :=
  match l with
  | [::] => [::]
  | nd :: l' => it_stage sigma preg dreg first nd (hd_fs l' tn) :: it_stages sigma preg dreg false l' tn
  end.
(** the iteration reproduced its own iterate: no change of the primal point or
    of z, and zero primal residual *)
Definition stationary_node (nd : node) : Prop :=
  [/\ (dxt (adm nd) : 'cV[F]_n) = dx (dir nd),
      (dut (adm nd) : 'cV[F]_(nu (nm nd))) = du (dir nd),
      row_Cd nd = az (adm nd) & node_z nd = az (adm nd)].
Definition stationary_tnode (tn : tnode) : Prop :=
  [/\ (tdxt tn : 'cV[F]_n) = tdx tn, row_Cd_t tn = taz tn & tnode_z tn = taz tn].
Definition stationary (t : traj M) : Prop :=
  (forall nd, List.In nd (run t) -> stationary_node nd) /\ stationary_tnode (trm t).

(** ** Complementarity of a row: value c of the constraint row, multiplier y *)
Definition complementary (lo hi : option F) (g v y : F) : Prop :=
  [/\ in_box lo hi g v,
      0 < y -> exists b, hi = Some b /\ v = b - g
    & y < 0 -> exists b, lo = Some b /\ v = b - g].
Definition ordered (lo hi : option F) : Prop :=
  match lo, hi with Some a, Some b => a <= b | _, _ => True end.
(** ** Penalties: rho_min for a free row, 10^3 rho for an equality row, rho for
    the others ([xlit F p q] is the number p/q) *)
Definition penalty (rmin rho : F) (lo hi : option F) : F :=
  match lo, hi with
  | None, None => rmin
  | Some a, Some b => if `|a - b| <= xlit F 1 1000000 then xlit F 1000 1 * rho else rho
  | _, _ => rho
  end.
Definition row_penalty (rmin rho : F) (lo hi : option F) (r ir : F) : Prop :=
  ordered lo hi -> r = penalty rmin rho lo hi /\ ir = r^-1.
Definition node_penalty (rmin rho : F) (nd : node) : Prop :=
  forall i, row_penalty rmin rho ((alb (nm nd) : 'cV[option F]_(ng (nm nd))) i 0) ((aub (nm nd) : 'cV[option F]_(ng (nm nd))) i 0)
    ((arho (adm nd) : 'cV[F]_(ng (nm nd))) i 0) ((airho (adm nd) : 'cV[F]_(ng (nm nd))) i 0).
Definition tnode_penalty (rmin rho : F) (tn : tnode) : Prop :=
  forall i, row_penalty rmin rho ((tlb (tm tn) : 'cV[option F]_(tng (tm tn))) i 0) ((tub (tm tn) : 'cV[option F]_(tng (tm tn))) i 0)
    ((tarho tn : 'cV[F]_(tng (tm tn))) i 0) ((tairho tn : 'cV[F]_(tng (tm tn))) i 0).
Definition penalties (rmin rho : F) (t : traj M) : Prop :=
  (forall nd, List.In nd (run t) -> node_penalty rmin rho nd) /\ tnode_penalty rmin rho (trm t).

(** ** Complementarity of every well-ordered row of a trajectory.  [node_rows]:
    the constraint variable z and the multiplier y.  [node_lin_rows]: the value of
    the linearised constraint along the exposed direction and y. *)
Definition node_rows (nd : node) : Prop :=
  forall i, ordered ((alb (nm nd) : 'cV[option F]_(ng (nm nd))) i 0) ((aub (nm nd) : 'cV[option F]_(ng (nm nd))) i 0) ->
  complementary ((alb (nm nd) : 'cV[option F]_(ng (nm nd))) i 0) ((aub (nm nd) : 'cV[option F]_(ng (nm nd))) i 0)
    ((ag (nm nd) (mem nd) : 'cV[F]_(ng (nm nd))) i 0)
    ((az (adm nd) : 'cV[F]_(ng (nm nd))) i 0) ((ay (adm nd) : 'cV[F]_(ng (nm nd))) i 0).
Definition tnode_rows (tn : tnode) : Prop :=
  forall i, ordered ((tlb (tm tn) : 'cV[option F]_(tng (tm tn))) i 0) ((tub (tm tn) : 'cV[option F]_(tng (tm tn))) i 0) ->
  complementary ((tlb (tm tn) : 'cV[option F]_(tng (tm tn))) i 0) ((tub (tm tn) : 'cV[option F]_(tng (tm tn))) i 0)
    ((tg (tm tn) (tme tn) : 'cV[F]_(tng (tm tn))) i 0)
    ((taz tn : 'cV[F]_(tng (tm tn))) i 0) ((tay tn : 'cV[F]_(tng (tm tn))) i 0).
Definition rows_complementary (t : traj M) : Prop :=
  (forall nd, List.In nd (run t) -> node_rows nd) /\ tnode_rows (trm t).
Definition node_lin (nd : node) : 'cV[F]_(ng (nm nd)) :=
  (Gx (der nd) : 'M[F]_(ng (nm nd), n)) *m (dx (dir nd) : 'cV[F]_n)
  + (Gu (der nd) : 'M[F]_(ng (nm nd), nu (nm nd))) *m (du (dir nd) : 'cV[F]_(nu (nm nd))).
Definition tnode_lin (tn : tnode) : 'cV[F]_(tng (tm tn)) :=
  (tGx (tder tn) : 'M[F]_(tng (tm tn), n)) *m (tdx tn : 'cV[F]_n).
Definition node_lin_rows (nd : node) : Prop :=
  forall i, ordered ((alb (nm nd) : 'cV[option F]_(ng (nm nd))) i 0) ((aub (nm nd) : 'cV[option F]_(ng (nm nd))) i 0) ->
  complementary ((alb (nm nd) : 'cV[option F]_(ng (nm nd))) i 0) ((aub (nm nd) : 'cV[option F]_(ng (nm nd))) i 0)
    ((ag (nm nd) (mem nd) : 'cV[F]_(ng (nm nd))) i 0)
    (node_lin nd i 0) ((ay (adm nd) : 'cV[F]_(ng (nm nd))) i 0).
Definition tnode_lin_rows (tn : tnode) : Prop :=
  forall i, ordered ((tlb (tm tn) : 'cV[option F]_(tng (tm tn))) i 0) ((tub (tm tn) : 'cV[option F]_(tng (tm tn))) i 0) ->
  complementary ((tlb (tm tn) : 'cV[option F]_(tng (tm tn))) i 0) ((tub (tm tn) : 'cV[option F]_(tng (tm tn))) i 0)
    ((tg (tm tn) (tme tn) : 'cV[F]_(tng (tm tn))) i 0)
    (tnode_lin tn i 0) ((tay tn : 'cV[F]_(tng (tm tn))) i 0).
(** the KKT conditions of the inequality-constrained subproblem at the exposed
    dx_, du_, lag_mul_, y_ *)
Definition qp_kkt (preg dreg : F) (t : traj M) : Prop :=
  [/\ lq_kkt 0 (con_stages preg dreg true (run t) (trm t)) (con_final preg (trm t)),
      (forall nd, List.In nd (run t) -> node_lin_rows nd) & tnode_lin_rows (trm t)].
End Spec.
