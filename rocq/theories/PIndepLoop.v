(** * Two runs of SolverPROXQP::solve from objects with different pasts: the states. *)
From Coq Require Import ZArith List Arith Lia.
Set Warnings "-notation-overridden,-ambiguous-paths".
From mathcomp Require Import all_ssreflect all_algebra.
From Verif Require Import Eigen EigenExact Problem DDP Filter FilterProofs SQP CSQP Init Flat KKT PROXQP PROXBlocks PROXSys PROXHist
  ADMMExact SsrLia CIndep PIndep.
From Verif Require Indep.

Set Implicit Arguments.
Unset Strict Implicit.
Unset Printing Implicit Defensive.

Import Order.TTheory GRing.Theory Num.Theory.
Local Open Scope ring_scope.
Ltac inP := repeat (first [assumption | by left | right]).

Section PLoop.
Variable F : realFieldType.
Variable sq : F -> F.
Notation E := (ExactE sq).
Variable M : manifold E.
Variable qp : forall N Me Mi : nat, 'M[F]_N -> 'cV[F]_N -> 'M[F]_(Me, N) -> 'cV[F]_Me ->
  'M[F]_(Mi, N) -> 'cV[option F]_Mi -> 'cV[option F]_Mi -> option ('cV[F]_N * 'cV[F]_Me * 'cV[F]_Mi).
Variables (l : seq (slot M)) (t : tslot M).
Variable c : pcfg sq.
Notation dc := (pc_ddp c).
Notation S1 := (fun _ : amodel M => True).
Notation T1 := (fun _ : tmodel M => True).
Notation jrel := (jrel S1 T1).

(** QP data that agree: the matrices everywhere, the bounds on the rows in use *)
Definition same_qp (a1 a2 : pqs M) : Prop :=
  [/\ forall r k, pq_P a1 r k = pq_P a2 r k, forall r k, pq_A a1 r k = pq_A a2 r k, forall r k, pq_C a1 r k = pq_C a2 r k,
      forall r, pq_q a1 r = pq_q a2 r & forall r, pq_b a1 r = pq_b a2 r] /\
  forall r, (r < nin (run (pq_tr a1)) (trm (pq_tr a1)))%N -> pq_l a1 r = pq_l a2 r /\ pq_u a1 r = pq_u a2 r.
Definition sagr (f : fld) (a1 a2 : pqs M) : Prop :=
  match f with
  | FC => [/\ pq_cost a1 = pq_cost a2, pq_gap a1 = pq_gap a2, pq_con a1 = pq_con a2 & pq_merit a1 = pq_merit a2]
  | FN => same_qp a1 a2
  | FK => pq_KKT a1 = pq_KKT a2
  | FJ => [/\ pq_costt a1 = pq_costt a2, pq_gapt a1 = pq_gapt a2, pq_cont a1 = pq_cont a2 & pq_meritt a1 = pq_meritt a2]
  | FS => pq_step a1 = pq_step a2
  | _ => True
  end.
(** the buffers of the filter agree on their last [j] entries *)
Definition same_bufs (j : nat) (a1 a2 : pqs M) : Prop :=
  exists hc hg hk, [/\ List.length hc = j, List.length hg = j & List.length hk = j] /\
     [/\ holds (pc_fsize c) hc (pq_costl a1) /\ holds (pc_fsize c) hc (pq_costl a2),
         holds (pc_fsize c) hg (pq_gapl a1) /\ holds (pc_fsize c) hg (pq_gapl a2)
       & holds (pc_fsize c) hk (pq_conl a1) /\ holds (pc_fsize c) hk (pq_conl a2)].
Definition hd0 (tr : traj M) : Prop := hd_fs (run tr) (trm tr) = vzero E.
Record prl (P : fld -> Prop) (j : nat) (a1 a2 : pqs M) : Prop := mkPrl {
  p_j : jrel P (pq_tr a1) (pq_tr a2);
  p_g1 : good l t a1; p_g2 : good l t a2;
  p_f1 : hd0 (pq_tr a1); p_f2 : hd0 (pq_tr a2);
  p_preg : pq_preg a1 = pq_preg a2; p_dreg : pq_dreg a1 = pq_dreg a2; p_iter : pq_iter a1 = pq_iter a2;
  p_s : forall f, P f -> sagr f a1 a2;
  p_buf : pc_filter c = true -> same_bufs j a1 a2
}.
Lemma prl_mono (P Q : fld -> Prop) j a1 a2 : (forall f, Q f -> P f) -> prl P j a1 a2 -> prl Q j a1 a2.
Proof. by move=> hq [h1 h2 h3 h4 h5 h6 h7 h8 h9 h10]; split=> //; [exact: jrel_mono h1|move=> f /hq; exact: h9]. Qed.
Lemma hd0_keeps s s' : keeps s s' -> hd0 (pq_tr s) -> hd0 (pq_tr s').
Proof. by move=> [[_ _ _ e] _]; rewrite /hd0 e. Qed.
Lemma jrel_scal (P : fld -> Prop) f t1 t2 : match f with FC | FN | FS | FI | FK | FJ => True | _ => False end ->
  jrel P t1 t2 -> jrel (add f P) t1 t2.
Proof.
move=> hf [h1 h2]; split.
- elim: h1 => [|n1 n2 q1 q2 hn _ ih]; constructor => //; move: hn; clear -hf.
  case=> m p1 p2 me1 me2 d1 d2 f1 f2 v1 v2 e1 e2 a1 a2 hS hx hu h; constructor => //.
  by move=> g [eg|hg]; [subst g; case: f hf|exact: h].
- move: h2; clear -hf; case=> m x xt1 xt2 me1 me2 d1 d2 f1 f2 A1 A2 v1 v2 dx1 dx2 l1 l2
    dt1 dt2 z1 z2 zp1 zp2 zr1 zr2 y1 y2 r1 r2 i1 i2 hS h; constructor => //.
  by move=> g [eg|hg]; [subst g; case: f hf|exact: h].
Qed.
(** everything but the fields named is inherited *)
Lemma prl_step (P Q : fld -> Prop) j a1 a2 b1 b2 : prl P j a1 a2 -> keeps a1 b1 -> keeps a2 b2 ->
  jrel Q (pq_tr b1) (pq_tr b2) -> pq_preg b1 = pq_preg b2 -> pq_dreg b1 = pq_dreg b2 -> pq_iter b1 = pq_iter b2 ->
  (forall f, Q f -> sagr f b1 b2) -> (pq_costl b1, pq_gapl b1, pq_conl b1) = (pq_costl a1, pq_gapl a1, pq_conl a1) ->
  (pq_costl b2, pq_gapl b2, pq_conl b2) = (pq_costl a2, pq_gapl a2, pq_conl a2) -> prl Q j b1 b2.
Proof.
move=> [h1 h2 h3 h4 h5 h6 h7 h8 h9 h10] k1 k2 hj q1 q2 q3 q4 [q5 q6 q7] [q8 q9 q10]; split=> //.
- exact: good_keeps k1 h2.
- exact: good_keeps k2 h3.
- exact: hd0_keeps k1 h4.
- exact: hd0_keeps k2 h5.
- by rewrite /same_bufs q5 q6 q7 q8 q9 q10.
Qed.

(** ** calc *)
Notation PC P := (add FM (add FD (add FF (add FC (add FN P))))).
Lemma calc_prl (P : fld -> Prop) j a1 a2 : prl P j a1 a2 -> prl (PC P) j (pq_calc c a1) (pq_calc c a2).
Proof.
move=> h; have k1 := keeps_calc c a1; have k2 := keeps_calc c a2.
have hg1 := good_keeps k1 (p_g1 h); have hg2 := good_keeps k2 (p_g2 h).
have m1 := problem_calc_rel (p_j h).
have [m2 e2] := calcDiff_rel (or_introl (Logic.eq_refl FM) : add FM P FM) m1.
have ef : hd_fs (run (fst (problem_calcDiff (problem_calc (pq_tr a1))))) (trm (fst (problem_calcDiff (problem_calc (pq_tr a1))))) =
          hd_fs (run (fst (problem_calcDiff (problem_calc (pq_tr a2))))) (trm (fst (problem_calcDiff (problem_calc (pq_tr a2))))).
  have q1 := congr1 (fun z => snd (snd (snd z))) (shape_calcDiff (pq_tr a1)).
  have q2 := congr1 (fun z => snd (snd (snd z))) (shape_calcDiff (pq_tr a2)).
  have w1 := etrans q1 (p_f1 h); have w2 := etrans q2 (p_f2 h); exact: etrans w1 (esym w2).
case: (m2) => r1 r2.
have := @calc_nodes_rel E M S1 T1 (add FD (add FM P)) _ _ _ _ (or_intror (or_introl (Logic.eq_refl FM))) r1 r2 None 0 0 (fun _ => ef).
cbv zeta; case=> v1 [v2 v3].
pose Q := add FF (add FD (add FM P)).
have hj : jrel Q (pq_tr (pq_calc c a1)) (pq_tr (pq_calc c a2)) by split.
have qd : Q FD by rewrite /Q; inP. have qf : Q FF by rewrite /Q; inP. have qm : Q FM by rewrite /Q; inP.
have ec : sagr FC (pq_calc c a1) (pq_calc c a2).
  rewrite /sagr /pq_calc; cbn [pq_cost pq_gap pq_con pq_merit]; rewrite -e2 -v3.
  have [x1 x2] : xl1 (viol_lb E (tlb (tm (pq_calc c a1).(pq_tr).(trm))) (tg (tm (pq_calc c a1).(pq_tr).(trm)) (tme (pq_calc c a1).(pq_tr).(trm)))) =
     xl1 (viol_lb E (tlb (tm (pq_calc c a2).(pq_tr).(trm))) (tg (tm (pq_calc c a2).(pq_tr).(trm)) (tme (pq_calc c a2).(pq_tr).(trm)))) /\
     xl1 (viol_ub E (tub (tm (pq_calc c a1).(pq_tr).(trm))) (tg (tm (pq_calc c a1).(pq_tr).(trm)) (tme (pq_calc c a1).(pq_tr).(trm)))) =
     xl1 (viol_ub E (tub (tm (pq_calc c a2).(pq_tr).(trm))) (tg (tm (pq_calc c a2).(pq_tr).(trm)) (tme (pq_calc c a2).(pq_tr).(trm)))).
    by case: (proj2 hj) => m x xt1 xt2 me1 me2 d1 d2 f1 f2 A1 A2 w1 w2 dx1 dx2 l1 l2 dt1 dt2 z1 z2 zp1 zp2 zr1 zr2 y1 y2 s1 s2 i1 i2 _ hh;
      have := hh _ qm; cbn [tagr] => ->.
  rewrite /pq_calc in x1 x2; cbn [pq_tr trm] in x1, x2; by rewrite x1 x2.
have en : sagr FN (pq_calc c a1) (pq_calc c a2).
  have [q1 q2] := hj; case: (hg1) => _ _ _ [z1 z2 z3 z4 z5]; case: (hg2) => _ _ _ [y1 y2 y3 y4 y5].
  have z0 := zeros_shape (esym (proj1 k1)) (let: And4 _ _ _ z := p_g1 h in z).
  have y0 := zeros_shape (esym (proj1 k2)) (let: And4 _ _ _ z := p_g2 h in z).
  move: z0 y0; rewrite /zeros.
  have el := len_rel q1; have ew : neq (run (pq_tr (pq_calc c a1))) = neq (run (pq_tr (pq_calc c a2))) by rewrite /neq el.
  rewrite ew el (pw_rel q1 q2 qd) (aw_rel q1 qd) (cw_rel q1 q2 qd) (qw_rel q1 q2 qd) (bw_rel q1 q2 qf).
  move=> [b1 b2 b3 b4 b5] [d1 d2 d3 d4 d5].
  have eP : pq_P (pq_calc c a1) = wrl (pw (neq (run (pq_tr (pq_calc c a1)))) 0 0 (run (pq_tr (pq_calc c a1))) (trm (pq_tr (pq_calc c a1)))) (pq_P a1) by [].
  have eP' : pq_P (pq_calc c a2) = wrl (pw (neq (run (pq_tr (pq_calc c a2)))) 0 0 (run (pq_tr (pq_calc c a2))) (trm (pq_tr (pq_calc c a2)))) (pq_P a2) by [].
  have eA : pq_A (pq_calc c a1) = wrl (aw (neq (run (pq_tr (pq_calc c a1)))) 0 0 (run (pq_tr (pq_calc c a1)))) (pq_A a1) by [].
  have eA' : pq_A (pq_calc c a2) = wrl (aw (neq (run (pq_tr (pq_calc c a2)))) 0 0 (run (pq_tr (pq_calc c a2)))) (pq_A a2) by [].
  have eC : pq_C (pq_calc c a1) = wrl (cw (List.length (run (pq_tr (pq_calc c a1)))) 0 0 (run (pq_tr (pq_calc c a1))) (trm (pq_tr (pq_calc c a1)))) (pq_C a1) by [].
  have eC' : pq_C (pq_calc c a2) = wrl (cw (List.length (run (pq_tr (pq_calc c a2)))) 0 0 (run (pq_tr (pq_calc c a2))) (trm (pq_tr (pq_calc c a2)))) (pq_C a2) by [].
  have eq : pq_q (pq_calc c a1) = wsl (qw (neq (run (pq_tr (pq_calc c a1)))) 0 0 (run (pq_tr (pq_calc c a1))) (trm (pq_tr (pq_calc c a1)))) (pq_q a1) by [].
  have eq' : pq_q (pq_calc c a2) = wsl (qw (neq (run (pq_tr (pq_calc c a2)))) 0 0 (run (pq_tr (pq_calc c a2))) (trm (pq_tr (pq_calc c a2)))) (pq_q a2) by [].
  have eb : pq_b (pq_calc c a1) = wsl (bw 0 (run (pq_tr (pq_calc c a1))) (trm (pq_tr (pq_calc c a1)))) (pq_b a1) by [].
  have eb' : pq_b (pq_calc c a2) = wsl (bw 0 (run (pq_tr (pq_calc c a2))) (trm (pq_tr (pq_calc c a2)))) (pq_b a2) by [].
  have elo : pq_l (pq_calc c a1) = wsl (lw false 0 (run (pq_tr (pq_calc c a1))) (trm (pq_tr (pq_calc c a1)))) (pq_l a1) by [].
  have elo' : pq_l (pq_calc c a2) = wsl (lw false 0 (run (pq_tr (pq_calc c a2))) (trm (pq_tr (pq_calc c a2)))) (pq_l a2) by [].
  have eu : pq_u (pq_calc c a1) = wsl (lw true 0 (run (pq_tr (pq_calc c a1))) (trm (pq_tr (pq_calc c a1)))) (pq_u a1) by [].
  have eu' : pq_u (pq_calc c a2) = wsl (lw true 0 (run (pq_tr (pq_calc c a2))) (trm (pq_tr (pq_calc c a2)))) (pq_u a2) by [].
  rewrite /sagr /same_qp eP eP' eA eA' eC eC' eq eq' eb eb' elo elo' eu eu'.
  rewrite ew el (pw_rel q1 q2 qd) (aw_rel q1 qd) (cw_rel q1 q2 qd) (qw_rel q1 q2 qd) (bw_rel q1 q2 qf).
  move=> {eP eP' eA eA' eC eC' eq eq' eb eb' elo elo' eu eu' z1 z2 z3 z4 z5 y1 y2 y3 y4 y5}.
  split.
    split=> r.
    - by move=> k; apply: wrl_same => r' k' hc; rewrite b1 ?d1.
    - by move=> k; apply: wrl_same => r' k' hc; rewrite b2 ?d2.
    - by move=> k; apply: wrl_same => r' k' hc; rewrite b3 ?d3.
    - by apply: wsl_same => r' hc; rewrite b4 ?d4.
    - by apply: wsl_same => r' hc; rewrite b5 ?d5.
  move=> r hr; rewrite -!(lw_rel q1 q2 qm); split; apply: wsl_cov; apply: lw_cover => //; rewrite add0n; exact: hr.
have hs : forall f, P f -> sagr f (pq_calc c a1) (pq_calc c a2).
  by move=> f pf; have := p_s h pf; case: f pf.
apply: (prl_step h k1 k2) => //.
- apply: (jrel_mono (P := add FN (add FC Q))); first by rewrite /Q /add => f; tauto.
  by apply: jrel_scal => //; apply: jrel_scal.
- exact: p_preg h.
- exact: p_dreg h.
- exact: p_iter h.
- move=> f; rewrite /add => hf.
  case: f hf => hf; try exact: I; try exact: ec; try exact: en; apply: hs; tauto || (by do 5 (case: hf => [hf|hf]; [discriminate hf|])).
Qed.

(** ** the QP *)
Definition asks (N Me Mi : nat) (bP bA bC : buf F) (bq bb : vbuf F) (bl bu : vbuf (option F)) : option (vbuf F * vbuf F * vbuf F) :=
  match @qp N Me Mi (mxof N N bP) (as_cv N bq) (mxof Me N bA) (as_cv Me bb) (mxof Mi N bC) (\col_i bl i) (\col_i bu i) with
  | Some (x, y, z) => Some (entv x, entv y, entv z)
  | None => None
  end.
Lemma ask_prl (P : fld -> Prop) j a1 a2 : P FN -> prl P j a1 a2 -> pq_ask qp a1 = pq_ask qp a2.
Proof.
move=> pn h; have [[e1 e2 e3 e4 e5] e6] := p_s h pn; have [q1 q2] := p_j h.
rewrite -[pq_ask qp a1]/(asks (nvars (run (pq_tr a1))) (neq (run (pq_tr a1))) (nin (run (pq_tr a1)) (trm (pq_tr a1))) (pq_P a1) (pq_A a1) (pq_C a1) (pq_q a1) (pq_b a1) (pq_l a1) (pq_u a1)).
rewrite -[pq_ask qp a2]/(asks (nvars (run (pq_tr a2))) (neq (run (pq_tr a2))) (nin (run (pq_tr a2)) (trm (pq_tr a2))) (pq_P a2) (pq_A a2) (pq_C a2) (pq_q a2) (pq_b a2) (pq_l a2) (pq_u a2)).
have ew : neq (run (pq_tr a1)) = neq (run (pq_tr a2)) by rewrite /neq (len_rel q1).
have ev : nvars (run (pq_tr a1)) = nvars (run (pq_tr a2)) by rewrite /nvars ew (sumnu_rel q1).
have ei : nin (run (pq_tr a1)) (trm (pq_tr a1)) = nin (run (pq_tr a2)) (trm (pq_tr a2)) by rewrite /nin (sumng_rel q1) (tm_rel q2).
rewrite ei in e6; rewrite ew ev ei; move: (nvars _) (neq _) (nin _ _) e6 => N Me Mi e6; rewrite /asks.
have -> : mxof N N (pq_P a1) = mxof N N (pq_P a2) by apply/matrixP => r k; rewrite !mxE.
have -> : mxof Me N (pq_A a1) = mxof Me N (pq_A a2) by apply/matrixP => r k; rewrite !mxE.
have -> : mxof Mi N (pq_C a1) = mxof Mi N (pq_C a2) by apply/matrixP => r k; rewrite !mxE.
have -> : as_cv N (pq_q a1) = as_cv N (pq_q a2) by apply/matrixP => r k; rewrite !mxE.
have -> : as_cv Me (pq_b a1) = as_cv Me (pq_b a2) by apply/matrixP => r k; rewrite !mxE.
have -> : (\col_(i < Mi) pq_l a1 i) = \col_i pq_l a2 i by apply/matrixP => r k; rewrite !mxE; case: (e6 r (ltn_ord r)).
by have -> : (\col_(i < Mi) pq_u a1 i) = \col_i pq_u a2 i by apply/matrixP => r k; rewrite !mxE; case: (e6 r (ltn_ord r)).
Qed.

(** ** computeDirection and its retries *)
Definition calcd (P : fld -> Prop) : Prop := [/\ P FM, P FD, P FF, P FC & P FN].
Notation PK P := (add FK (PC P)).
Notation PX P := (add FX (add FL (add FY P))).
Lemma direction_prl (P : fld -> Prop) j recalc a1 a2 : P FL -> P FY -> recalc = true \/ calcd P -> prl P j a1 a2 ->
  match pq_direction qp c recalc a1, pq_direction qp c recalc a2 with
  | PDok r1, PDok r2 => prl (PX (PK P)) j r1 r2
  | PDthrow r1, PDthrow r2 => prl (PK P) j r1 r2
  | PDub, PDub => True
  | _, _ => False
  end.
Proof.
move=> pl py hr h; rewrite /pq_direction.
have h1 : prl (PC P) j (if recalc then pq_calc c a1 else a1) (if recalc then pq_calc c a2 else a2).
  case: hr => [->|[m d f k q]]; first exact: calc_prl.
  case: recalc; first exact: calc_prl.
  by apply: prl_mono h => g; do 5 (case=> [-> //|]).
have d1 : run (pq_tr a1) <> [::] -> run (pq_tr (if recalc then pq_calc c a1 else a1)) <> [::].
  case: (recalc) => // hn e; apply: hn; have := congr1 (fun z => size z.1) (calc_shape c a1).
  by rewrite /shape; cbn [fst]; rewrite e size_map /=; case: (run (pq_tr a1)).
have d2 : run (pq_tr a2) <> [::] -> run (pq_tr (if recalc then pq_calc c a2 else a2)) <> [::].
  case: (recalc) => // hn e; apply: hn; have := congr1 (fun z => size z.1) (calc_shape c a2).
  by rewrite /shape; cbn [fst]; rewrite e size_map /=; case: (run (pq_tr a2)).
have el := len_rel (proj1 (p_j h)).
move: (if recalc then _ else a1) (if recalc then _ else a2) h1 d1 d2 => s1 s2 h1 d1 d2.
case e1: (run (pq_tr a1)) d1 el => [|n1 q1]; case e2: (run (pq_tr a2)) d2 => [|n2 q2] // d2 d1 _.
have {}d1 := d1 ltac:(by []); have {}d2 := d2 ltac:(by []).
have [pd pf pc pn] : [/\ PC P FD, PC P FF, PC P FC & PC P FN] by rewrite /add; split; tauto.
have [pl' py'] : PC P FL /\ PC P FY by rewrite /add; split; tauto.
have h2 : prl (PK P) j (set_p_KKT s1 (pq_check (pq_con s1) (pq_tr s1))) (set_p_KKT s2 (pq_check (pq_con s2) (pq_tr s2))).
  have [_ _ ec _] := p_s h1 pc.
  apply: (prl_step h1) => //.
  - by apply: jrel_scal => //; exact: p_j h1.
  - exact: p_preg h1.
  - exact: p_dreg h1.
  - exact: p_iter h1.
  - move=> f [->|hf]; first by rewrite /sagr /= -ec; exact: check_rel (p_j h1).
    have := p_s h1 hf; case: f hf => // hf _; rewrite /sagr /= -ec; exact: check_rel (p_j h1).
rewrite -(ask_prl (P := PK P) (or_intror pn) h2).
have d1' : run (pq_tr (set_p_KKT s1 (pq_check (pq_con s1) (pq_tr s1)))) <> [::] by [].
have d2' : run (pq_tr (set_p_KKT s2 (pq_check (pq_con s2) (pq_tr s2)))) <> [::] by [].
move: (set_p_KKT s1 _) (set_p_KKT s2 _) h2 d1' d2' => b1 b2 h2 d1' d2'.
case: (pq_ask qp b1) => [[[x y] z]|]; last exact: h2.
have [k1 k2] := p_j h2.
have -> : neq (run (pq_tr b2)) = neq (run (pq_tr b1)) by rewrite /neq (len_rel k1).
have hd : hd_dx (run (pq_tr b1)) (trm (pq_tr b1)) = hd_dx (run (pq_tr b2)) (trm (pq_tr b2)).
  by case: (p_g1 h2) => _ _ ea _; case: (p_g2 h2) => _ _ eb _; exact: etrans ea (esym eb).
have := @extract_rel F sq M (PK P) (neq (run (pq_tr b1))) x y z _ _ _ _ (or_intror pl') k1 k2 0%N 0%N 0%N (fun _ => hd).
cbv zeta => -[x1 x2].
apply: (prl_step h2) => //.
- apply: keeps_same => //; exact: extract_shape.
- apply: keeps_same => //; rewrite -(_ : neq (run (pq_tr b2)) = neq (run (pq_tr b1))); last by rewrite /neq (len_rel k1).
  exact: extract_shape.
- exact: p_preg h2.
- exact: p_dreg h2.
- exact: p_iter h2.
- move=> f hf; case: f hf => hf; try exact: I; do 3 (case: hf => [hf|hf]; [discriminate hf|]); have := p_s h2 hf => //=.
  rewrite /same_qp; cbn [pq_P pq_A pq_C pq_q pq_b pq_l pq_u pq_tr set_p_tr run trm] => -[w1 w2]; split=> // r hr'; apply: w2.
  rewrite /nin; have := congr1 (fun w => (w.1, w.2.1)) (extract_shape (neq (run (pq_tr b1))) x y z d1') => -[em et].
  move: hr'; rewrite /nin et; congr (_ < _ + _)%N.
  by elim: (run (pq_tr b1)) (pq_extract _ _ _ _ _ _ _ _ _).1 em => [|n3 q3 IH] [|n4 q4] //= [-> /IH ->].
Qed.
Lemma inc_prl (P : fld -> Prop) j a1 a2 : prl P j a1 a2 -> prl P j (pq_inc c a1) (pq_inc c a2).
Proof.
by move=> h; apply: (prl_step h) => //; try exact: p_j h; try exact: p_iter h; try (rewrite /pq_inc /= (p_preg h) //); move=> f hf; have := p_s h hf; case: f hf.
Qed.
Lemma dec_prl (P : fld -> Prop) j a1 a2 : prl P j a1 a2 -> prl P j (pq_dec c a1) (pq_dec c a2).
Proof.
by move=> h; apply: (prl_step h) => //; try exact: p_j h; try exact: p_iter h; try (rewrite /pq_dec /= (p_preg h) //); move=> f hf; have := p_s h hf; case: f hf.
Qed.
Lemma retry_prl j fuel : forall (P : fld -> Prop) recalc a1 a2, P FL -> P FY -> recalc = true \/ calcd P -> prl P j a1 a2 ->
  match pq_retry qp c fuel recalc a1, pq_retry qp c fuel recalc a2 with
  | PRok r1, PRok r2 => prl (PX (PK P)) j r1 r2
  | PRfalse r1, PRfalse r2 => prl (PK P) j r1 r2
  | PRub, PRub | PRfuel, PRfuel => True
  | _, _ => False
  end.
Proof.
elim: fuel => [//|fuel IH] P recalc a1 a2 pl py hr h; cbn [pq_retry].
have := direction_prl pl py hr h.
case: (pq_direction _ _ _ a1) => [r1|r1|]; case: (pq_direction _ _ _ a2) => [r2|r2|] // h1.
have h2 := inc_prl h1; rewrite -(p_preg h2); case: ifP => // _.
have hc : calcd (PK P) by rewrite /calcd /add; split; tauto.
have := IH (PK P) false _ _ ltac:(rewrite /add; tauto) ltac:(rewrite /add; tauto) (or_intror hc) h2.
have sub f : PX (PK P) f -> PX (PK (PK P)) f by rewrite /add; tauto.
have sub' f : PK P f -> PK (PK P) f by rewrite /add; tauto.
by case: (pq_retry _ _ _ _ _) => [s1|s1||]; case: (pq_retry _ _ _ _ _) => [s2|s2||] //; apply: prl_mono.
Qed.

(** ** line search *)
Lemma vec0 : forall v w : vec E 0, v = w.
Proof. by move=> v w; exact: (@vec0_exact F sq). Qed.
Lemma push_prl (P : fld -> Prop) j a1 a2 : P FC -> prl P j a1 a2 -> prl P j.+1 (pq_push a1) (pq_push a2).
Proof.
move=> pc [h1 h2 h3 h4 h5 h6 h7 h8 h9 h10]; have [e1 e2 e3 _] := h9 _ pc.
split=> //.
- move=> /h10 [hc [hg [hk [[b1 b2 b3] [[b4 b5] [b6 b7] [b8 b9]]]]]].
  exists (pq_cost a1 :: hc), (pq_gap a1 :: hg), (pq_con a1 :: hk); rewrite /= b1 b2 b3 -e1 -e2 -e3.
  by split=> //; split; split; exact: holds_push.
Qed.
Lemma try_prl (P : fld -> Prop) j a a1 a2 : ~ P FN -> P FX -> P FM -> prl P j a1 a2 ->
  let r1 := pq_tryStep c a a1 in let r2 := pq_tryStep c a a2 in
  [/\ r1.1 = r2.1, prl P j r1.2 r2.2 & r1.1 = true -> prl (add FP (add FJ P)) j r1.2 r2.2].
Proof.
move=> nn px pm h; have k1 := keeps_try c a a1; have k2 := keeps_try c a a2; cbv zeta.
move: k1 k2; rewrite /pq_tryStep; case: (_ || _); first by move=> _ _; split.
cbv zeta.
have m1 := @ctrial_rel E M vec0 S1 T1 P a _ _ px (p_j h); have [l1 l2] := m1.
have := @ceval_nodes_rel E M S1 T1 (add FP P) _ _ _ _ (or_introl (Logic.eq_refl FP)) (or_intror pm) l1 l2 (0 : F) (0 : F) (0 : F).
cbv zeta; move: (@ctrial E M a (pq_tr a1)) (@ctrial E M a (pq_tr a2)) m1 l1 l2 => t1 t2 m1 l1 l2.
move: (ceval_nodes (run t1) _ _ _ _) (ceval_nodes (run t2) _ _ _ _) => r1 r2 [e1 [e2 e3]].
rewrite -e1 -e2; move: (snd r1) => v {e2}.
have gen (Q : fld -> Prop) b1 b2 cc gg hh mm u1 u2 : (forall f, Q f -> add FP (add FJ P) f) -> jrel (add FP P) u1 u2 ->
   b1 = set_p_try (set_p_tr a1 u1) cc gg hh mm -> b2 = set_p_try (set_p_tr a2 u2) cc gg hh mm ->
   keeps a1 b1 -> keeps a2 b2 -> prl Q j b1 b2.
  move=> sub hj eb1 eb2 w1 w2; apply: (prl_step h w1 w2); rewrite ?eb1 ?eb2 //; cbn [pq_tr set_p_try set_p_tr].
  - apply: (jrel_mono (P := add FJ (add FP P))); first by move=> f /sub; rewrite /add; tauto.
    exact: jrel_scal.
  - exact: p_preg h.
  - exact: p_dreg h.
  - exact: p_iter h.
  - move=> f /sub hf; case: f hf => hf; try exact: I; try (by []); do 2 (case: hf => [hf|hf]; [discriminate hf|]); first [exact: (p_s h hf)|by case: nn].
have sub0 : forall f, P f -> add FP (add FJ P) f by rewrite /add; tauto.
case: (fst (fst r1)); cbn [negb fst snd]; last first.
  move=> k1 k2; split=> //; apply: (gen P _ _ _ _ _ _ _ _ sub0 _ (Logic.eq_refl _) (Logic.eq_refl _) k1 k2); split=> //.
set tn1 := set_tme (trm t1) _; set tn2 := set_tme (trm t2) _.
have [q1 [q2 [q3 q4]]] : trel T1 (add FP P) tn1 tn2 /\
    (tcost (tm tn1) (tme tn1) = tcost (tm tn2) (tme tn2) /\
     xl1 (viol_lb E (tlb (tm tn1)) (tg (tm tn1) (tme tn1))) = xl1 (viol_lb E (tlb (tm tn2)) (tg (tm tn2) (tme tn2))) /\
     xl1 (viol_ub E (tub (tm tn1)) (tg (tm tn1) (tme tn1))) = xl1 (viol_ub E (tub (tm tn2)) (tg (tm tn2) (tme tn2)))).
  rewrite /tn1 /tn2; move: l2; clear.
  case=> m x xt1 xt2 me1 me2 f1 f2 g1 g2 A1 A2 w1 w2 dx1 dx2 ll1 ll2 dt1 dt2 z1 z2 zp1 zp2 zr1 zr2 y1 y2 r1 r2 i1 i2 hS hh.
  have e : xt1 = xt2 by apply: (hh FP); left.
  subst xt2; split; last by [].
  by constructor => //; move=> f hf; case: f hf => hf; try exact: (hh _ hf).
rewrite -q2 -q3 -q4; move: (tcost (tm tn1) _) (xl1 (viol_lb E (tlb (tm tn1)) _)) (xl1 (viol_ub E (tub (tm tn1)) _)) => x y z k1 k2.
have hj : jrel (add FP P) (mkTraj (snd (fst r1)) tn1) (mkTraj (snd (fst r2)) tn2) by split.
split=> //.
- exact: (gen P _ _ _ _ _ _ _ _ sub0 hj (Logic.eq_refl _) (Logic.eq_refl _) k1 k2).
- by move=> _; exact: (gen _ _ _ _ _ _ _ _ _ (fun f h => h) hj (Logic.eq_refl _) (Logic.eq_refl _) k1 k2).
Qed.
Lemma acc_prl (P : fld -> Prop) a1 a2 : P FC -> P FJ -> prl P (pq_iter a1).+1 a1 a2 -> pq_accept c a1 = pq_accept c a2.
Proof.
move=> pc pj h; have [_ _ _ em] := p_s h pc; have [j1 j2 j3 j4] := p_s h pj.
rewrite /pq_accept -em -j4 -(p_iter h); case ef: (pc_filter c) => //.
have [hc [hg [hk [[b1 b2 b3] [[b4 b4'] [b5 b5'] [b6 b6']]]]]] := p_buf h ef.
rewrite (@Indep.filter_worse_agree _ (pq_dominated a2)) // => k hk' hi.
rewrite /pq_dominated /cb_get -j1 -j2 -j3.
have ex : forall (w : seq F), List.length w = (pq_iter a1).+1 -> exists x, List.nth_error w k = Some x.
  move=> w ew; case e: (List.nth_error w k) => [x|]; first by exists x.
  move/List.nth_error_None: e; slia.
have [x hx] := ex _ b1; have [y hy] := ex _ b2; have [z hz'] := ex _ b3.
case: b4 => _ [_ b4]; case: b4' => _ [_ b4']; case: b5 => _ [_ b5]; case: b5' => _ [_ b5']; case: b6 => _ [_ b6]; case: b6' => _ [_ b6'].
by rewrite (b4 _ _ hk' hx) (b4' _ _ hk' hx) (b5 _ _ hk' hy) (b5' _ _ hk' hy) (b6 _ _ hk' hz') (b6' _ _ hk' hz').
Qed.
Lemma try_iter a (s : pqs M) : pq_iter (pq_tryStep c a s).2 = pq_iter s.
Proof. by rewrite /pq_tryStep; case: (_ || _) => //; cbv zeta; case: (~~ _). Qed.
Lemma step_prl (P : fld -> Prop) j a a1 a2 : prl P j a1 a2 -> prl (add FS P) j (set_p_step a1 a) (set_p_step a2 a).
Proof.
move=> h; apply: (prl_step h) => //; try exact: p_preg h; try exact: p_dreg h; try exact: p_iter h.
- by apply: jrel_scal => //; exact: p_j h.
- by move=> f [-> //|hf]; have := p_s h hf; case: f hf.
Qed.
Lemma search_prl al : forall (P : fld -> Prop) a1 a2, ~ P FN -> P FX -> P FM -> P FC -> (al = [::] -> P FS) ->
  prl P (pq_iter a1).+1 a1 a2 ->
  match pq_search c al a1, pq_search c al a2 with
  | Some r1, Some r2 => prl (add FS P) (pq_iter a1).+1 r1 r2
  | None, None => True
  | _, _ => False
  end.
Proof.
elim: al => [|a al IH] P a1 a2 nn px pm pc hs h; cbn [pq_search].
  by apply: prl_mono h => f [->|//]; exact: hs.
have h1 := step_prl a h; set Q := add FS P in h1 *.
have nq : ~ Q FN by case.
have [qx qm qc qs] : [/\ Q FX, Q FM, Q FC & Q FS] by rewrite /Q /add; split; tauto.
have [e h2 h3] := try_prl a nq qx qm h1.
have ei := try_iter a (set_p_step a1 a).
move: e h2 h3 ei; case: (pq_tryStep c a (set_p_step a1 a)) => [b1 s1]; case: (pq_tryStep c a (set_p_step a2 a)) => [b2 s2]; cbn [fst snd pq_iter set_p_step].
move=> <- h2 h3 ei.
have rec : (match pq_search c al s1, pq_search c al s2 return Prop with Some r1, Some r2 => prl Q (pq_iter a1).+1 r1 r2 | None, None => True | _, _ => False end).
  have := IH Q s1 s2 nq qx qm qc (fun _ => qs); rewrite ei => /(_ h2).
  by case: (pq_search _ _ s1) => [r1|]; case: (pq_search _ _ s2) => [r2|] //; apply: prl_mono; rewrite /add; tauto.
case: b1 h3 => h3; last by exact rec.
have {}h3 := h3 erefl.
rewrite -(@acc_prl (add FP (add FJ Q)) s1 s2); [|by rewrite /add; tauto|by rewrite /add; tauto|by rewrite ei].
case: (pq_accept c s1) => [[]|] //.
have fr (s : pqs M) : keeps s (set_p_tr s (accept_try (pq_tr s))) by apply: keeps_same => //; exact: (@shape_map _ _ _ _ (pq_tr s)).
apply: (prl_step h3 (fr s1) (fr s2)) => //; try exact: p_preg h3; try exact: p_dreg h3; try exact: p_iter h3.
- have hj := accept_rel (or_introl (Logic.eq_refl FP) : add FP (add FJ Q) FP) (p_j h3).
  by apply: jrel_mono hj; rewrite /Q /add; tauto.
- move=> f hf; have hf' : add FP (add FJ Q) f by move: hf; rewrite /Q /add; tauto.
  have hn : f <> FN by move=> e; subst f; case: hf => [//|hf]; exact: nn.
  by have := p_s h3 hf'; case: f hn {hf hf'}.
Qed.

(** ** the loop *)
Lemma direction_iter recalc (s : pqs M) : match pq_direction qp c recalc s with PDok s' | PDthrow s' => pq_iter s' = pq_iter s | PDub => True end.
Proof.
rewrite /pq_direction; case: (run _) => // _ _.
have e : pq_iter (if recalc then pq_calc c s else s) = pq_iter s by case: (recalc).
by move: (if recalc then _ else s) e => s1 e; case: (pq_ask _ _) => [[[x y] z]|].
Qed.
Lemma retry_iter fuel recalc (s : pqs M) : match pq_retry qp c fuel recalc s with PRok s' | PRfalse s' => pq_iter s' = pq_iter s | _ => True end.
Proof.
elim: fuel recalc s => [//|fuel IH] recalc s; cbn [pq_retry]; have := direction_iter recalc s.
case: (pq_direction _ _ _ _) => [s1|s1|] // e; case: ifP => _ //.
by have := IH false (pq_inc c s1); case: (pq_retry _ _ _ _ _) => // s2; rewrite -e.
Qed.
(** what a call returns; [B]: the step lengths found agree *)
Variable B : Prop.
Hypothesis hB : c_alphas dc = [::] -> B.
Definition ret_ok (b1 b2 : bool) (r1 r2 : pqs M) : Prop :=
  b1 = b2 /\ exists (P : fld -> Prop) j, [/\ prl P j r1 r2, P FL, P FY, B -> P FS & b1 = true -> [/\ P FK, P FC & P FX]].
Lemma iter_prl (P : fld -> Prop) j i a1 a2 : prl P j a1 a2 -> prl P j (set_p_iter a1 i) (set_p_iter a2 i).
Proof.
move=> h; apply: (prl_step h) => //; try exact: p_preg h; try exact: p_dreg h; try exact: p_j h.
by move=> f hf; have := p_s h hf; case: f hf.
Qed.
Lemma loop_prl fuel k : forall (P : fld -> Prop) i a1 a2, P FL -> P FY -> (B -> P FS) -> prl P i a1 a2 ->
  match pq_loop qp c fuel k i a1, pq_loop qp c fuel k i a2 return Prop with
  | PRet b1 r1, PRet b2 r2 => ret_ok b1 b2 r1 r2
  | PThrow, PThrow | PUB, PUB | PFuel, PFuel => True
  | _, _ => False
  end.
Proof.
elim: k => [|k IH] P i a1 a2 pl py hs h; cbn [pq_loop].
  by split=> //; exists P, i; split=> //; exact: iter_prl.
have h1 := iter_prl i h.
have ei1 : pq_iter (set_p_iter a1 i) = i by [].
move: (set_p_iter a1 i) (set_p_iter a2 i) h1 ei1 => b1 b2 h1 ei1.
have kr := retry_iter fuel true b1; rewrite ei1 in kr.
have := retry_prl fuel pl py (or_introl (Logic.eq_refl true) : true = true \/ calcd P) h1.
case: (pq_retry _ _ _ _ b1) kr => [s1|s1||]; case: (pq_retry _ _ _ _ b2) => [s2|s2||] // ei h2; last first.
  split=> //; exists (PK P), i; split=> //; rewrite /add; tauto.
pose Q f := f <> FN /\ PX (PK P) f.
have hq : prl Q i s1 s2 by apply: prl_mono h2 => f [].
have [qk qc qx qm] : [/\ Q FK, Q FC, Q FX & Q FM] by rewrite /Q /add; split; split=> //; tauto.
have [ql qy] : Q FL /\ Q FY by rewrite /Q /add; split; split=> //; tauto.
have qs : B -> Q FS by move=> /hs; rewrite /Q /add; split=> //; tauto.
have nq : ~ Q FN by case.
have ek : pq_KKT s1 = pq_KKT s2 := p_s hq qk.
rewrite -ek; case: ifP => _; first by split=> //; exists Q, i; split.
have h3 := push_prl qc hq; rewrite -{1}ei in h3.
have := @search_prl (c_alphas dc) Q (pq_push s1) (pq_push s2) nq qx qm qc (fun e => qs (hB e)) h3.
case: (pq_search _ _ (pq_push s1)) => [r1|]; case: (pq_search _ _ (pq_push s2)) => [r2|] //.
have -> : (pq_iter (pq_push s1)).+1 = i.+1 by rewrite -ei.
move=> h4; set G := add FS Q in h4.
have [gl gy gs] : [/\ G FL, G FY & G FS] by rewrite /G /add; split; tauto.
have es : pq_step r1 = pq_step r2 := p_s h4 gs.
rewrite -es.
have h5 : prl G i.+1 (if (c_stepdec dc : F) < pq_step r1 then pq_dec c r1 else r1) (if (c_stepdec dc : F) < pq_step r1 then pq_dec c r2 else r2).
  by case: ifP => _ //; exact: dec_prl.
move: (if _ then pq_dec c r1 else r1) (if _ then pq_dec c r2 else r2) h5 => w1 w2 h5.
have es' : pq_step w1 = pq_step w2 := p_s h5 gs.
rewrite -es'; case: ifP => _; last exact: IH h5.
have h6 := inc_prl h5; rewrite -(p_preg h6); case: ifP => _; last exact: IH h6.
by split=> //; exists G, i.+1; split.
Qed.
End PLoop.
