(** * C62: how much of an object's past a call of SolverCSQP::solve can see. *)
From Coq Require Import ZArith List Bool Arith Lia ssreflect ssrbool.
From Verif Require Import Eigen EigenFloat EigenExact Problem DDP Filter FilterProofs SQP CSQP Init TrialSpec TraceSpec
  CSQPSpec CSQPFrames CSQPLoop History CSQPHist Models FloatWitness FastPass P_CSQPSolve CIndep CIndepLoop CIndepTerm.
From Verif Require P_ADMM.
Import ListNotations.
Set Implicit Arguments.
Unset Strict Implicit.
Set Asymmetric Patterns.

Section Indep62.
Variable E : Eig.
Variable M : manifold E.
Notation X := (mX M).
Notation vec := (vec E).
Notation node := (node M).
Notation tnode := (tnode M).

(** get_y(): the constraint multipliers; get_dx(), get_du(): the directions *)
Definition duals (t : traj M) : list {k : nat & vec k} := snd (cmultipliers t).
Definition steps (t : traj M) : list (vec (mndx M)) * list {k : nat & vec k} :=
  (map (fun n => dx (dir n)) (run t) ++ [tdx (trm t)], map (fun n => existT vec (nu (nm n)) (du (dir n))) (run t)).
Definition trace_of_call (s s' : csqp M) (w : list (event E)) : Prop := k_log s' = w ++ k_log s.
(** what the caller can observe of the two calls *)
Definition same_result (s1 s2 r1 r2 : csqp M) : Prop :=
  get_xs (k_tr r1) = get_xs (k_tr r2) /\ get_us (k_tr r1) = get_us (k_tr r2) /\
  k_iter r1 = k_iter r2 /\ k_preg r1 = k_preg r2 /\ k_reached r1 = k_reached r2 /\ k_step r1 = k_step r2 /\
  exists w1 w2, trace_of_call s1 r1 w1 /\ trace_of_call s2 r2 w2 /\ Forall2 (@evrel E) w1 w2.
Definition same_call (s1 s2 : csqp M) (o1 o2 : outcome (csqp M)) : Prop :=
  match o1, o2 with
  | Ret b1 r1, Ret b2 r2 => b1 = b2 /\ same_result s1 s2 r1 r2 /\
      (b1 = true -> k_kkt r1 = k_kkt r2 /\ k_cost r1 = k_cost r2 /\ k_gap r1 = k_gap r2 /\ k_con r1 = k_con r2 /\
                    cmultipliers (k_tr r1) = cmultipliers (k_tr r2))
  | Exc r1, Exc r2 => (r1 = s1 /\ r2 = s2) \/ same_result s1 s2 r1 r2
  | UB, UB | NoFuel, NoFuel => True
  | _, _ => False
  end.

(** ** the start of solve *)
Section Start.
Variable S : amodel M -> Prop.
Variable TS : tmodel M -> Prop.
Variable P : fld -> Prop.
Inductive prel (px_eq : bool) : node -> node -> Prop :=
  | Prel m (p1 p2 : point M (nu m)) (me1 me2 : amem m) d1 d2 f1 f2 (v1 v2 : vals M (nu m))
      (e1 e2 : dirs M (nu m)) (a1 a2 : admm M (nu m) (ng m)) : S m -> (px_eq = true -> px p1 = px p2) ->
      (forall f, P f -> agr f p1 p2 me1 me2 d1 d2 f1 f2 v1 v2 e1 e2 a1 a2) ->
      prel px_eq (@mkNode E M m p1 me1 d1 f1 v1 e1 a1) (@mkNode E M m p2 me2 d2 f2 v2 e2 a2).
Inductive ptrel : tnode -> tnode -> Prop :=
  | Ptrel m x1 x2 xt1 xt2 (me1 me2 : tmem m) d1 d2 f1 f2 A1 A2 v1 v2 dx1 dx2 l1 l2
      dt1 dt2 z1 z2 zp1 zp2 zr1 zr2 y1 y2 r1 r2 i1 i2 : TS m ->
      (forall f, P f -> tagr f xt1 xt2 me1 me2 d1 d2 f1 f2 A1 A2 v1 v2 dx1 dx2 l1 l2 dt1 dt2 z1 z2 zp1 zp2 y1 y2 r1 r2 i1 i2) ->
      ptrel (@mkTnode E M m x1 xt1 me1 d1 f1 A1 v1 dx1 l1 dt1 z1 zp1 zr1 y1 r1 i1)
            (@mkTnode E M m x2 xt2 me2 d2 f2 A2 v2 dx2 l2 dt2 z2 zp2 zr2 y2 r2 i2).
Hypothesis nop : ~ P FP.
Lemma guess_xs_rel l1 l2 : Forall2 (prel false) l1 l2 -> forall (tn1 tn2 : tnode) xs, ptrel tn1 tn2 ->
  match guess_xs l1 tn1 xs, guess_xs l2 tn2 xs with
  | Some r1, Some r2 => Forall2 (prel true) (fst r1) (fst r2) /\ trel TS P (snd r1) (snd r2)
  | None, None => True
  | _, _ => False
  end.
Proof.
  elim=> [|n1 n2 q1 q2 hn hq ih] tn1 tn2 [|x xs] ht //=.
  - case: xs => //=. split; [constructor|]. case: ht => *. by constructor.
  - have := ih tn1 tn2 xs ht.
    case: (guess_xs q1 tn1 xs) => [r1|]; case: (guess_xs q2 tn2 xs) => [r2|] // [h1 h2].
    split => //=. constructor => //. case: hn => m p1 p2 me1 me2 d1 d2 f1 f2 v1 v2 e1 e2 a1 a2 hS _ hf.
    rewrite /set_x /set_pt /=. by constructor.
Qed.
Lemma guess_us_rel (l1 l2 : list node) : Forall2 (prel true) l1 l2 -> forall us,
  match guess_us l1 us, guess_us l2 us with
  | Some r1, Some r2 => Forall2 (nrel S P) r1 r2
  | None, None => True
  | _, _ => False
  end.
Proof.
  elim=> [|n1 n2 q1 q2 hn hq ih] [|u us] //=.
  have := ih us. case: hn => m p1 p2 me1 me2 d1 d2 f1 f2 v1 v2 e1 e2 a1 a2 hS h1 hf /=.
    case: (@cast_vec _ _ _ _) => [v|]; last by case: (guess_us q1 us); case: (guess_us q2 us).
    case: (guess_us q1 us) => [r1|]; case: (guess_us q2 us) => [r2|] // hr.
    constructor => //. rewrite /set_u /=. constructor => //=. exact: h1.
Qed.
Lemma pin_rel y t1 t2 : jrel S TS P t1 t2 -> jrel S TS P (pin_xt0 y (pin_x0 y t1)) (pin_xt0 y (pin_x0 y t2)).
Proof.
  case: t1 => l1 tn1; case: t2 => l2 tn2 [/= h1 h2]. rewrite /pin_xt0 /pin_x0 /=.
  case: h1 => [|n1 n2 q1 q2 hn hq] /=.
  - split; [constructor|]. move: h2; clear -nop. case=> m x xt1 xt2 me1 me2 d1 d2 f1 f2 A1 A2 v1 v2 dx1 dx2 l1 l2
      dt1 dt2 z1 z2 zp1 zp2 zr1 zr2 y1 y2 r1 r2 i1 i2 hS hf. rewrite /set_txt /set_tx /=.
    constructor => // f pf. have := hf f pf. by case: f pf.
  - split => //. constructor => //. case: hn => m p1 p2 me1 me2 d1 d2 f1 f2 v1 v2 e1 e2 a1 a2 hS hx hu hf.
    rewrite /set_xt /set_x /set_pt /=. constructor => //= f pf. have := hf f pf. by case: f pf.
Qed.
Lemma set_guess_rel (t1 t2 : traj M) xs us : Forall2 (prel false) (run t1) (run t2) -> ptrel (trm t1) (trm t2) ->
  match set_guess xs us t1, set_guess xs us t2 with
  | Some t1', Some t2' => jrel S TS P t1' t2'
  | None, None => True
  | _, _ => False
  end.
Proof.
  move=> hl ht. rewrite /set_guess.
  have el : length (run t1) = length (run t2) by elim: hl => //= ? ? ? ? _ _ ->.
  have eu : map (fun n : node => existT vec (nu (nm n)) (vzero E)) (run t1) =
            map (fun n : node => existT vec (nu (nm n)) (vzero E)) (run t2).
  { elim: hl => //= ? ? ? ? hn _ ->. by case: hn. }
  rewrite -el -eu. move: (match us with [] => _ | _ => us end) => us'.
  move: (match xs with [] => _ | _ => xs end) => xs'.
  have := guess_xs_rel hl xs' ht.
  case: (guess_xs _ _ _) => [[r1 q1]|]; case: (guess_xs _ _ _) => [[r2 q2]|] //=.
  move=> [h1 h2]. have := guess_us_rel h1 us'.
  case: (guess_us r1 us') => [w1|]; case: (guess_us r2 us') => [w2|] //.
Qed.
End Start.

Variable c : ccfg E.
(** the arrays that survive from before the call *)
Definition kept (f : fld) : Prop := (f = FY /\ cc_resety c = false) \/ (f = FX /\ cc_eqguess c = false).
Lemma kept_nop : ~ kept FP.
Proof. by case=> [[]|[]]. Qed.
Lemma inj2 k (v w : vec k) : existT vec k v = existT vec k w -> v = w.
Proof. exact: (Eqdep_dec.inj_pair2_eq_dec _ Nat.eq_dec). Qed.
Lemma app1_inv A (a b : list A) x y : a ++ [x] = b ++ [y] -> a = b /\ x = y.
Proof. exact: app_inj_tail. Qed.
Lemma start_rel (S : amodel M -> Prop) (TS : tmodel M -> Prop) (t1 t2 : traj M) : (forall m, In m (map (@nm E M) (run t1)) -> S m) -> TS (tm (trm t1)) ->
  map (@nm E M) (run t1) = map (@nm E M) (run t2) -> tm (trm t1) = tm (trm t2) ->
  (cc_resety c = false -> duals t1 = duals t2) -> (cc_eqguess c = false -> steps t1 = steps t2) ->
  Forall2 (prel S kept false) (run t1) (run t2) /\ ptrel TS kept (trm t1) (trm t2).
Proof.
  case: t1 => l1 tn1; case: t2 => l2 tn2; rewrite /duals /cmultipliers /steps; cbn [run trm snd].
  move=> hS hT em et hy hx.
  have {}hy : cc_resety c = false -> map (fun n : node => existT vec (ng (nm n)) (ay (adm n))) l1 = map (fun n : node => existT vec (ng (nm n)) (ay (adm n))) l2
     /\ existT vec (tng (tm tn1)) (tay tn1) = existT vec (tng (tm tn2)) (tay tn2) by move=> e; exact: app1_inv (hy e).
  have {}hx : cc_eqguess c = false -> (map (fun n : node => dx (dir n)) l1 = map (fun n : node => dx (dir n)) l2 /\ tdx tn1 = tdx tn2) /\
     map (fun n : node => existT vec (nu (nm n)) (du (dir n))) l1 = map (fun n : node => existT vec (nu (nm n)) (du (dir n))) l2.
  { move=> /hx h. have h1 := app1_inv (f_equal fst h). have h2 := f_equal snd h. by split. }
  split.
  - have {}hy : cc_resety c = false -> map (fun n : node => existT vec (ng (nm n)) (ay (adm n))) l1 = map (fun n : node => existT vec (ng (nm n)) (ay (adm n))) l2 by move=> /hy [].
    have hx1 : cc_eqguess c = false -> map (fun n : node => dx (dir n)) l1 = map (fun n : node => dx (dir n)) l2 by move=> /hx [[]].
    have hx2 : cc_eqguess c = false -> map (fun n : node => existT vec (nu (nm n)) (du (dir n))) l1 = map (fun n : node => existT vec (nu (nm n)) (du (dir n))) l2 by move=> /hx [].
    clear hx et hT. elim: l1 l2 em hy hx1 hx2 hS => [|n1 l1 ih] [|n2 l2] //= [e1 e2] hy hx1 hx2 hS.
    constructor.
    + have hS1 : S (nm n1) by apply: hS; left.
      have hy1 : cc_resety c = false -> existT vec (ng (nm n1)) (ay (adm n1)) = existT vec (ng (nm n2)) (ay (adm n2)).
      { move=> /hy h. exact: (f_equal (hd (existT vec (ng (nm n2)) (ay (adm n2)))) h). }
      have hxa : cc_eqguess c = false -> dx (dir n1) = dx (dir n2).
      { move=> /hx1 h. exact: (f_equal (hd (dx (dir n2))) h). }
      have hxb : cc_eqguess c = false -> existT vec (nu (nm n1)) (du (dir n1)) = existT vec (nu (nm n2)) (du (dir n2)).
      { move=> /hx2 h. exact: (f_equal (hd (existT vec (nu (nm n2)) (du (dir n2)))) h). }
      clear hy hx1 hx2 ih hS. destruct n1 as [m1 p1 me1 d1 f1 v1 dd1 a1], n2 as [m2 p2 me2 d2 f2 v2 dd2 a2].
      cbn [nm adm dir] in *. subst m2. constructor => // f [[-> hf]|[-> hf]]; cbn [agr].
      * exact: inj2 (hy1 hf).
      * split; [exact: hxa|exact: inj2 (hxb hf)].
    + apply: ih => //.
      * move=> /hy h. exact: (f_equal (@tl _) h).
      * move=> /hx1 h. exact: (f_equal (@tl _) h).
      * move=> /hx2 h. exact: (f_equal (@tl _) h).
      * move=> m hm. apply: hS. by right.
  - have hya : cc_resety c = false -> existT vec (tng (tm tn1)) (tay tn1) = existT vec (tng (tm tn2)) (tay tn2) by move=> /hy [].
    have hxa : cc_eqguess c = false -> tdx tn1 = tdx tn2 by move=> /hx [[]].
    clear hy hx hS em. destruct tn1 as [m1 x1 xt1 me1 d1 f1 A1 v1 dx1 ll1 dt1 z1 zp1 zr1 y1 r1 i1], tn2 as [m2 x2 xt2 me2 d2 f2 A2 v2 dx2 ll2 dt2 z2 zp2 zr2 y2 r2 i2].
    cbn [tm tay tdx] in *. subst m2. constructor => // f [[-> hf]|[-> hf]]; cbn [tagr].
    + exact: inj2 (hya hf).
    + exact: hxa.
Qed.

(** SolverCSQP::solve.  [s1] and [s2] are objects with the same models and filter size
    and any two histories of public calls.  The clock readings of the two calls agree.
    Of the past, only the multipliers y (unless reset_y) and the directions dx, du
    (when equality_qp_initial_guess is off) matter; given these, the outcomes agree and
    so does everything the call leaves behind or shows, except the merit value shown
    by the callbacks of iteration 0. *)
Theorem C62_csqp_solve_forgets_the_past (l : list (slot M)) (t : tslot M) (resize : nat -> nat -> Prop) n s1 s2
    to1 to2 x0 fuel xs us maxiter reg :
  vec0_unique E -> (forall m m', resize m m' -> m <= m') -> cc_fsize c = n -> 1 <= cc_maxqp c ->
  (forall sl, In sl l -> settled c (alb (sl_m sl)) (aub (sl_m sl))) -> settled c (tlb (ts_m t)) (tub (ts_m t)) ->
  csqp_hist l t resize n s1 -> csqp_hist l t resize n s2 ->
  (forall k, to1 (k_clk s1 + k) = to2 (k_clk s2 + k)) -> (maxiter = 0 -> forall k, to1 k = false) ->
  (cc_resety c = false -> duals (k_tr s1) = duals (k_tr s2)) ->
  (cc_eqguess c = false -> steps (k_tr s1) = steps (k_tr s2)) ->
  same_call s1 s2 (csqp_solve c to1 x0 fuel xs us maxiter reg s1) (csqp_solve c to2 x0 fuel xs us maxiter reg s2).
Proof.
  move=> u0 hg hn hq hS hT h1 h2 hc h0 hy hx.
  have v0 : forall v w : vec 0, v = w by move=> v w; exact: u0.
  case: (chist_good h1) => m1 [z1 f1]. case: (chist_good h2) => m2 [z2 f2].
  have b1 := chist_bufs hg h1. have b2 := chist_bufs hg h2.
  have t1 := chist_tm h1. have t2 := chist_tm h2.
  have st1 := C32_csqp_steplength_constant h1. have st2 := C32_csqp_steplength_constant h2.
  set S := fun m : amodel M => In m (map (@sl_m E M) l). set TS := fun m : tmodel M => m = ts_m t.
  have hset : forall m, S m -> settled c (alb m) (aub m) by move=> m /in_map_iff [sl [<- /hS]].
  have htset : forall m, TS m -> settled c (tlb m) (tub m) by move=> m ->.
  have [p1 p2] := @start_rel S TS (k_tr s1) (k_tr s2) ltac:(move=> m hm; rewrite /S -m1; exact: hm) t1 (eq_trans m1 (eq_sym m2)) (eq_trans t1 (eq_sym t2)) hy hx.
  have hgr := @set_guess_rel S TS kept (k_tr s1) (k_tr s2) xs us p1 p2.
  rewrite /same_call /csqp_solve.
  case g1: (set_guess xs us (k_tr s1)) hgr => [t1'|]; case g2: (set_guess xs us (k_tr s2)) => [t2'|] // hj; last by left.
  have {}hj := pin_rel kept_nop x0 hj.
  have hz1 : hz (pin_xt0 x0 (pin_x0 x0 t1')).
  { case: (set_guessP g1) => k1 [[x k2] _]. split; [apply: pin_zeros; exact: ptonly_zeros k1 k2 z1|].
    by rewrite pin_fs (ptonly_fs k1 k2). }
  have hz2 : hz (pin_xt0 x0 (pin_x0 x0 t2')).
  { case: (set_guessP g2) => k1 [[x k2] _]. split; [apply: pin_zeros; exact: ptonly_zeros k1 k2 z2|].
    by rewrite pin_fs (ptonly_fs k1 k2). }
  move: (pin_xt0 x0 (pin_x0 x0 t1')) (pin_xt0 x0 (pin_x0 x0 t2')) hj hz1 hz2 => w1 w2 hj hz1 hz2.
  move: (if cc_removereg c then r0 E else init_reg (cc_ddp c) reg) => p.
  have hb : forall i1 i2, k_iter s1 = i1 -> k_iter s2 = i2 ->
    base c to1 to2 (k_log s1) (k_log s2) (0, 0) (set_k_iter 0 (set_k_reached false (set_k_dreg p (set_k_preg p (set_k_tr w1 s1)))))
         (set_k_iter 0 (set_k_reached false (set_k_dreg p (set_k_preg p (set_k_tr w2 s2))))).
  { move=> _ _ _ _. split => //.
    - cbn. by rewrite st1 st2.
    - by exists [], []; split => //; split => //; constructor.
    - case: b1 => b1 [b3 b4]; case: b2 => b2 [b5 b6]. exists [], [], []. by rewrite hn. }
  have {}hb := hb _ _ (Logic.eq_refl _) (Logic.eq_refl _).
  have hc0 : crel c S TS to1 to2 (k_log s1) (k_log s2) kept (0, 0) (set_k_iter 0 (set_k_reached false (set_k_dreg p (set_k_preg p (set_k_tr w1 s1)))))
         (set_k_iter 0 (set_k_reached false (set_k_dreg p (set_k_preg p (set_k_tr w2 s2))))).
  { split => //. by move=> f [[-> _]|[-> _]]. }
  have hky : kept FY \/ cc_resety c = true by case e: (cc_resety c); [right|left; left].
  have hkx : kept FX \/ cc_eqguess c = true by case e: (cc_eqguess c); [right|left; right].
  have fin : forall o1 o2,
    match o1, o2 with
    | Ret b1 r1, Ret b2 r2 => ret_ok c S TS to1 to2 (k_log s1) (k_log s2) b1 b2 r1 r2
    | Exc r1, Exc r2 => exists (P : fld -> Prop) j, crel c S TS to1 to2 (k_log s1) (k_log s2) P j r1 r2
    | UB, UB | NoFuel, NoFuel => True
    | _, _ => False
    end -> same_call s1 s2 o1 o2.
  { have obs : forall (P : fld -> Prop) j r1 r2, crel c S TS to1 to2 (k_log s1) (k_log s2) P j r1 r2 -> same_result s1 s2 r1 r2.
    { move=> P j r1 r2 [q1 q2 q3 q4 q5]. case: (get_rel q4) => x1 x2. case: q1 => a1 a2 [a3 a3'] a4 a5 a6 a7 a8.
      do 2 (split => //). split; [by rewrite a3 a3'|]. do 3 (split => //). }
    move=> [b r|r||] [b' r'|r'||] //=.
    - move=> [<- [P [j [q1 q2]]]]. split => //. split; [exact: obs q1|]. move=> /q2 [pk [pc [pl py]]].
      have [c1 [c2 c3]] := c_s q1 pc. do 4 (split; first by []||exact: (c_s q1 pk)). exact: mult_rel (c_j q1).
    - move=> [P [j /obs q]]. by right. }
  case: (Nat.eqb_spec maxiter 0) => hm.
  - apply: fin. set a1 := set_k_iter 0 _. set a2 := set_k_iter 0 (set_k_reached false (reset_rho c (csqp_calc (set_k_dreg p (set_k_preg p (set_k_tr w2 s2)))))).
    have ha : crel c S TS to1 to2 (k_log s1) (k_log s2) (add FR (add FM (add FD (add FF (add FC kept))))) (0, 0) a1 a2
      by exact: (reset_rho_crel hset htset (calc_crel hc0)).
    apply: (loop_crel v0 hset htset hq fuel _ _ _ _ _ _ _ ha).
    + move=> _. left. by left.
    + by left.
    + case: hky => hk; [left; rewrite /add; auto 10|by right].
    + case: hkx => hk; [left; rewrite /add; auto 10|by right].
    + by left.
    + by [].
    + move=> _. right. exact: h0.
  - apply: fin. apply: (loop_crel v0 hset htset hq fuel _ _ _ _ _ _ _ hc0) => //; by left.
Qed.
End Indep62.
Print Assumptions C62_csqp_solve_forgets_the_past.
