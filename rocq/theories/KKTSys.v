(** * The linear system assembled by SolverKKT is the KKT system of the LQ problem. *)
From Coq Require Import Ring Field ZArith List Arith.
Set Warnings "-notation-overridden,-ambiguous-paths".
From mathcomp Require Import all_ssreflect all_algebra.
From Verif Require Import FieldTac Eigen EigenExact Problem LQSpec Riccati SsrLia Init Flat KKT KKTSpec.

Set Implicit Arguments.
Unset Strict Implicit.
Unset Printing Implicit Defensive.

Import Order.TTheory GRing.Theory Num.Theory.
Local Open Scope ring_scope.

Section Sums.
Variable F : realFieldType.
Lemma ent_ord m k (A : 'M[F]_(m, k)) (i : 'I_m) (j : 'I_k) : ent A i j = A i j.
Proof. by rewrite /ent !valK. Qed.
Lemma entv_ord m (v : 'cV[F]_m) (i : 'I_m) : entv v i = v i 0.
Proof. by rewrite /entv valK. Qed.
Lemma sum_inr a m w (g : nat -> F) : (a + m <= w)%N ->
  \sum_(c < w) (if inr a m c then g (c - a)%N else 0) = \sum_(i < m) g i.
Proof.
move=> h; have -> : w = (a + (m + (w - a - m)))%N by slia.
rewrite big_split_ord /= big_split_ord /= big1 ?add0r; last first.
  by move=> i _; rewrite inr_out //; left; have := ltn_ord i; slia.
rewrite [X in _ + X]big1 ?addr0; last first.
  by move=> i _; rewrite inr_out //; right; slia.
apply: eq_bigr => i _; rewrite inr_in; last by have := ltn_ord i; slia.
by congr g; slia.
Qed.
Lemma sum_two j1 m1 j2 m2 w (f a1 a2 : nat -> F) (p : vbuf F) :
  (j1 + m1 <= j2)%N -> (j2 + m2 <= w)%N ->
  (forall c, (c < w)%N -> f c = if inr j2 m2 c then a2 (c - j2)%N else if inr j1 m1 c then a1 (c - j1)%N else 0) ->
  \sum_(c < w) f c * p c = \sum_(i < m1) a1 i * p (j1 + i)%N + \sum_(i < m2) a2 i * p (j2 + i)%N.
Proof.
move=> h1 h2 H.
rewrite -(@sum_inr j1 m1 w (fun i => a1 i * p (j1 + i)%N)); last slia.
rewrite -(@sum_inr j2 m2 w (fun i => a2 i * p (j2 + i)%N)) // -big_split /=.
apply: eq_bigr => c _; rewrite H; last exact: ltn_ord c.
case: (inrP j2 m2 c) => e2.
  rewrite inr_out ?add0r; last slia.
  by congr (_ * p _); slia.
case: (inrP j1 m1 c) => e1; last by rewrite addr0 mul0r.
by rewrite addr0; congr (_ * p _); slia.
Qed.
Lemma sum_one j1 m1 w (f a1 : nat -> F) (p : vbuf F) :
  (j1 + m1 <= w)%N ->
  (forall c, (c < w)%N -> f c = if inr j1 m1 c then a1 (c - j1)%N else 0) ->
  \sum_(c < w) f c * p c = \sum_(i < m1) a1 i * p (j1 + i)%N.
Proof.
move=> h1 H; rewrite -(@sum_inr j1 m1 w (fun i => a1 i * p (j1 + i)%N)) //.
apply: eq_bigr => c _; rewrite H; last exact: ltn_ord c.
case: (inrP j1 m1 c) => e1; last by rewrite mul0r.
by congr (_ * p _); slia.
Qed.
Lemma mul_seg m k (A : 'M[F]_(m, k)) (p : vbuf F) a (i : 'I_m) :
  (A *m seg k p a) i 0 = \sum_(j < k) ent A i j * p (a + j)%N.
Proof. by rewrite mxE; apply: eq_bigr => j _; rewrite mxE ent_ord. Qed.
Lemma tmul_seg m k (A : 'M[F]_(m, k)) (p : vbuf F) a (j : 'I_k) :
  (A^T *m seg m p a) j 0 = \sum_(i < m) ent A i j * p (a + i)%N.
Proof. by rewrite mxE; apply: eq_bigr => i _; rewrite !mxE ent_ord. Qed.
Lemma negmul_seg m k (A : 'M[F]_(m, k)) (v : 'cV[F]_k) i : ((- A) *m v) i 0 = - (A *m v) i 0.
Proof. by rewrite mulNmx mxE. Qed.
(** a sum with a single unit coefficient *)
Lemma sum_delta a (p : vbuf F) w (f : nat -> F) : (a < w)%N ->
  (forall c, (c < w)%N -> f c = if Nat.eqb a c then 1 else 0) -> \sum_(c < w) f c * p c = p a.
Proof.
move=> h H; rewrite (@sum_one a 1 w f (fun _ => 1)) ?big_ord1 ?mul1r /=; [|slia|].
  by rewrite addn0.
move=> c hc; rewrite H //; case: (Nat.eqb_spec a c) => e.
  by rewrite e; have := @inr_in c 1 0; rewrite Nat.add_0_r => ->; [|slia].
by rewrite inr_out //; slia.
Qed.
End Sums.

Section Fill.
Variable F : realFieldType.
Variable sq : F -> F.
Notation E := (ExactE sq).
Variable M : manifold E.
Notation n := (mndx M).
Notation node := (node M).
Notation tnode := (tnode M).
Add Field FfK : (F_field_theory F).
Variables wX wU : nat.
Notation w := (wX + wU)%N.

(** the loop leaves the rows and columns of earlier nodes alone *)
Lemma fill_out ix iu (l : seq node) (tn : tnode) K q :
  (ix + n * (size l).+1 <= wX)%N -> (iu + sum_nu l <= wU)%N ->
  let r := kk_fill wX wU ix iu l tn K q in
  [/\ forall i c, [\/ (i < ix)%N, (wX <= i)%N && (i < wX + iu)%N | (w <= i)%N && (i < w + n + ix)%N ] ->
        fst r i c = K i c /\ snd r i = q i,
      forall i c, (w <= i)%N -> (c < ix)%N || ((wX <= c)%N && (c < wX + iu)%N) -> fst r i c = K i c
    & forall i c, (w <= c)%N -> fst r i c = K i c].
Proof.
elim: l ix iu K q => [|nd l IH] ix iu K q h1 h2 /=.
  split=> [i c h|i c h h'|i c h]; rewrite /wrm /wrv.
  - by rewrite wrb_row_out ?wrs_out //; case: h => h; rewrite /= in h1 h2; slia.
  - by rewrite wrb_row_out //; rewrite /= in h1; slia.
  - by rewrite wrb_col_out //; rewrite /= in h1; slia.
rewrite /= in h1 h2; set k := nu (nm nd) in h2 *.
have h1' : (ix + n + n * (size l).+1 <= wX)%N by rewrite mulnS in h1; slia.
have h2' : (iu + k + sum_nu l <= wU)%N by slia.
set K6 := wrm _ _ _ (wrm _ _ _ _); set q3 := wrv _ _ _.
have [f1 f2 f3] := IH (ix + n)%N (iu + k)%N K6 q3 h1' h2'.
have hn : (n <= n * (size l).+1)%N by rewrite mulnS; slia.
split=> [i c h|i c h h'|i c h].
- have [-> ->] : fst (kk_fill wX wU (ix + n) (iu + k) l tn K6 q3) i c = K6 i c /\ snd (kk_fill wX wU (ix + n) (iu + k) l tn K6 q3) i = q3 i.
    by apply: f1; case: h => h; [apply: Or31|apply: Or32|apply: Or33]; slia.
  rewrite /K6 /q3 /wrm /wrv !wrs_out ?wrb_row_out //; by case: h => h; slia.
- rewrite f2 //; last by slia.
  by rewrite /K6 /wrm !wrb_col_out //; slia.
- rewrite f3 //.
  by rewrite /K6 /wrm !wrb_col_out //; slia.
Qed.

Definition prow (K : buf F) (p : vbuf F) (i : nat) : F := \sum_(c < w) K i c * p c.
Definition dcol (K : buf F) (p : vbuf F) (c : nat) : F := \sum_(j < wX) K (w + j)%N c * p (w + j)%N.
Definition delta (r c : nat) : F := if Nat.eqb r c then 1 else 0.
(** content of the buffer before the node at ix, iu is processed *)
Definition clean (ix iu : nat) (K : buf F) : Prop :=
  [/\ forall r c, (ix <= r)%N && (r < wX)%N -> (c < w)%N -> K r c = 0,
      forall r c, (wX + iu <= r)%N && (r < w)%N -> (c < w)%N -> K r c = 0
    & forall r c, (r < wX)%N -> (c < w)%N -> (n + ix <= r)%N || ((ix <= c)%N && (c < wX)%N) || (wX + iu <= c)%N ->
        K (w + r)%N c = delta r c].

Lemma sum_plus N (h f g : nat -> F) (p : nat -> F) : (forall c, (c < N)%N -> h c = f c + g c) ->
  \sum_(c < N) h c * p c = \sum_(c < N) f c * p c + \sum_(c < N) g c * p c.
Proof. by move=> H; rewrite -big_split /=; apply: eq_bigr => c _; rewrite H ?mulrDl. Qed.

Section Node.
Variables (nd : node) (l : seq node) (tn : tnode) (ix iu : nat) (K : buf F) (q p : vbuf F).
Notation k := (nu (nm nd)).
Hypothesis h1 : (ix + n * (size l).+2)%N = wX.
Hypothesis h2 : (iu + (k + sum_nu l))%N = wU.
Hypothesis hc : clean ix iu K.
Let K6 := fst (kk_fill wX wU ix iu (nd :: l) tn K q).
Let q3 := snd (kk_fill wX wU ix iu (nd :: l) tn K q).

Let h1' : (ix + n + n * (size l).+1 <= wX)%N. Proof. by move: h1; rewrite mulnS; slia. Qed.
Let h2' : (iu + k + sum_nu l <= wU)%N. Proof. by move: h2; slia. Qed.
Let hn : (n <= n * (size l).+1)%N. Proof. by rewrite mulnS; slia. Qed.

Let K1 : buf F :=
  wrm (w + n + ix) (wX + iu) (- (Fu (der nd) : 'M[F]_(n, k)))
    (wrm (w + n + ix) ix (- (Fx (der nd) : 'M[F]_n))
      (wrm (wX + iu) (wX + iu) (Luu (der nd) : 'M[F]_k)
        (wrm (wX + iu) ix ((Lxu (der nd) : 'M[F]_(n, k))^T)
          (wrm ix (wX + iu) (Lxu (der nd) : 'M[F]_(n, k)) (wrm ix ix (Lxx (der nd) : 'M[F]_n) K))))).
Let q1 : vbuf F :=
  wrv (w + n + ix) (diff M (axnext (nm nd) (mem nd)) (hd_x l tn) : 'cV[F]_n)
    (wrv (wX + iu) (Lu (der nd) : 'cV[F]_k) (wrv ix (Lx (der nd) : 'cV[F]_n) q)).
Lemma node_keep :
  [/\ forall i c, (i < ix + n)%N -> K6 i c = K1 i c /\ q3 i = q1 i,
      forall i c, (wX <= i)%N && (i < wX + iu + k)%N -> K6 i c = K1 i c /\ q3 i = q1 i,
      forall i c, (w <= i)%N && (i < w + n + ix + n)%N -> K6 i c = K1 i c /\ q3 i = q1 i
    & forall i c, (w <= i)%N -> (c < ix + n)%N || ((wX <= c)%N && (c < wX + iu + k)%N) -> K6 i c = K1 i c].
Proof.
have [f1 f2 _] := @fill_out (ix + n)%N (iu + k)%N l tn K1 q1 h1' h2'.
split=> i c h.
- by apply: f1; apply: Or31.
- by apply: f1; apply: Or32; slia.
- by apply: f1; apply: Or33; slia.
- by move=> h'; apply: f2 => //; slia.
Qed.
Lemma node_rowX (o : 'I_n) :
  prow K6 p (ix + o)%N = ((Lxx (der nd) : 'M[F]_n) *m seg n p ix) o 0
     + ((Lxu (der nd) : 'M[F]_(n, k)) *m seg k p (wX + iu)) o 0
  /\ q3 (ix + o)%N = (Lx (der nd) : 'cV[F]_n) o 0.
Proof.
have [hX hU hD] := hc; have ho := ltn_ord o; have [kX _ _ _] := node_keep.
split; last first.
  have [_ ->] := kX (ix + o)%N 0%N ltac:(slia).
  by rewrite /q1 /wrv wrs_out; [rewrite wrs_out; [rewrite wrs_in ?entv_ord //; slia|slia]|slia].
rewrite !mul_seg; apply: sum_two; [slia|slia|].
move=> c hcw; have [-> _] := kX (ix + o)%N c ltac:(slia).
rewrite /K1 /wrm 4?wrb_row_out; try slia.
rewrite wrb_row_in; last by slia.
case: (inr _ k c) => //; rewrite wrb_row_in; last by slia.
by case: (inr ix _ c) => //; rewrite hX //; slia.
Qed.
Lemma node_rowU (o : 'I_k) :
  prow K6 p (wX + iu + o)%N = ((Lxu (der nd) : 'M[F]_(n, k))^T *m seg n p ix) o 0
     + ((Luu (der nd) : 'M[F]_k) *m seg k p (wX + iu)) o 0
  /\ q3 (wX + iu + o)%N = (Lu (der nd) : 'cV[F]_k) o 0.
Proof.
have [hX hU hD] := hc; have ho := ltn_ord o; have [_ kU _ _] := node_keep.
split; last first.
  have [_ ->] := kU (wX + iu + o)%N 0%N ltac:(slia).
  by rewrite /q1 /wrv wrs_out; [rewrite wrs_in ?entv_ord //; slia|slia].
rewrite !mul_seg; apply: sum_two; [slia|slia|].
move=> c hcw; have [-> _] := kU (wX + iu + o)%N c ltac:(slia).
rewrite /K1 /wrm 2?wrb_row_out; try slia.
rewrite wrb_row_in; last by slia.
case: (inr _ k c) => //; rewrite wrb_row_in; last by slia.
case: (inr ix _ c) => //; rewrite !wrb_row_out ?hU //; slia.
Qed.
Lemma node_rowD (o : 'I_n) :
  prow K6 p (w + n + ix + o)%N = p (ix + n + o)%N - ((Fx (der nd) : 'M[F]_n) *m seg n p ix) o 0
     - ((Fu (der nd) : 'M[F]_(n, k)) *m seg k p (wX + iu)) o 0
  /\ q3 (w + n + ix + o)%N = (diff M (axnext (nm nd) (mem nd)) (hd_x l tn) : 'cV[F]_n) o 0.
Proof.
have [hX hU hD] := hc; have ho := ltn_ord o; have [_ _ kD _] := node_keep.
split; last first.
  have [_ ->] := kD (w + n + ix + o)%N 0%N ltac:(slia).
  by rewrite /q1 /wrv wrs_in ?entv_ord //; slia.
rewrite -addrA -!negmul_seg /prow (@sum_plus w _ (delta (n + ix + o))
  (fun c => if inr (wX + iu) k c then ent (- (Fu (der nd) : 'M[F]_(n, k))) o (c - (wX + iu))
            else if inr ix n c then ent (- (Fx (der nd) : 'M[F]_n)) o (c - ix) else 0)); last first.
  move=> c hcw; have [-> _] := kD (w + n + ix + o)%N c ltac:(slia).
  have eD : K (w + n + ix + o)%N c = delta (n + ix + o) c.
    by have := hD (n + ix + o)%N c; rewrite !addnA => -> //; slia.
  have dl : inr (wX + iu) k c || inr ix n c -> delta (n + ix + o) c = 0.
    rewrite /delta; case: Nat.eqb_spec => // e; case: (inrP (wX + iu) k c) => [h _|_ /=]; first slia.
    by case: (inrP ix n c) => // h _; slia.
  rewrite /K1 /wrm wrb_row_in; last by slia.
  case e1: (inr _ k c); first by rewrite dl ?add0r // e1.
  rewrite wrb_row_in; last by slia.
  case e2: (inr ix n c); first by rewrite dl ?add0r // e1 e2.
  by rewrite !wrb_row_out ?addr0 ?eD //; slia.
congr (_ + _).
  rewrite (@sum_delta F (n + ix + o)) //; last by slia.
  by congr p; slia.
rewrite !mul_seg; pose f c := if inr (wX + iu) k c then ent (- (Fu (der nd) : 'M[F]_(n, k))) o (c - (wX + iu)) else if inr ix n c then ent (- (Fx (der nd) : 'M[F]_n)) o (c - ix) else 0.
by apply: (@sum_two F ix n (wX + iu)%N k w f (ent (- (Fx (der nd) : 'M[F]_n)) o) (ent (- (Fu (der nd) : 'M[F]_(n, k))) o) p) => //; slia.
Qed.
Lemma node_colX (o : 'I_n) :
  dcol K6 p (ix + o)%N = p (w + ix + o)%N - ((Fx (der nd) : 'M[F]_n)^T *m seg n p (w + (ix + n))) o 0.
Proof.
have [hX hU hD] := hc; have ho := ltn_ord o; have [_ _ _ kC] := node_keep.
rewrite -negmul_seg -linearN /dcol (@sum_plus wX (fun j => K6 (w + j)%N (ix + o)%N) (delta (ix + o))
  (fun j => if inr (ix + n) n j then ent (- (Fx (der nd) : 'M[F]_n)) (j - (ix + n)) o else 0)
  (fun j => p (w + j)%N)); last first.
  move=> j hj; rewrite kC; [|slia|slia].
  have eD : K (w + j)%N (ix + o)%N = delta (ix + o) j.
    by rewrite hD //; [rewrite /delta Nat.eqb_sym|slia|slia].
  rewrite /K1 /wrm wrb_col_out; last by slia.
  rewrite wrb_col_in; last by slia.
  have -> : inr (w + n + ix) n (w + j) = inr (ix + n) n j by apply/idP/idP => /inrP h; apply/inrP; slia.
  case: (inrP (ix + n) n j) => e.
    rewrite (_ : delta _ _ = 0) ?add0r; last by rewrite /delta; case: Nat.eqb_spec => // h; slia.
    by congr (ent _ _ _); slia.
  by rewrite addr0 !wrb_row_out ?eD //; slia.
congr (_ + _).
  by rewrite (@sum_delta F (ix + o) (fun c => p (w + c)%N) wX (delta (ix + o))) ?addnA //; slia.
rewrite /= tmul_seg -(@sum_inr F (ix + n) n wX (fun i => ent (- (Fx (der nd) : 'M[F]_n)) i o * p (w + (ix + n) + i)%N)); last by slia.
apply: eq_bigr => j _; case: (inrP (ix + n) n j) => e; last by rewrite mul0r.
by congr (_ * p _); slia.
Qed.
Lemma node_colU (o : 'I_k) :
  dcol K6 p (wX + iu + o)%N = - ((Fu (der nd) : 'M[F]_(n, k))^T *m seg n p (w + (ix + n))) o 0.
Proof.
have [hX hU hD] := hc; have ho := ltn_ord o; have [_ _ _ kC] := node_keep.
rewrite -negmul_seg -linearN /= tmul_seg.
rewrite -(@sum_inr F (ix + n) n wX (fun i => ent (- (Fu (der nd) : 'M[F]_(n, k))) i o * p (w + (ix + n) + i)%N)); last by slia.
apply: eq_bigr => j _; have hj := ltn_ord j; rewrite kC; [|slia|slia].
rewrite /K1 /wrm wrb_col_in; last by slia.
have -> : inr (w + n + ix) n (w + j) = inr (ix + n) n j by apply/idP/idP => /inrP h; apply/inrP; slia.
case: (inrP (ix + n) n j) => e; first by congr (ent _ _ _ * p _); slia.
have e0 : delta j (wX + iu + o) = 0 by rewrite /delta; case: Nat.eqb_spec => // h; slia.
by rewrite !wrb_row_out ?hD ?e0 ?mul0r //; slia.
Qed.
End Node.

Lemma clean_step (nd : node) ix iu K :
  (ix + n <= wX)%N -> (iu + nu (nm nd) <= wU)%N -> clean ix iu K ->
  clean (ix + n) (iu + nu (nm nd))
   (wrm (w + n + ix) (wX + iu) (- (Fu (der nd) : 'M[F]_(n, nu (nm nd))))
    (wrm (w + n + ix) ix (- (Fx (der nd) : 'M[F]_n))
      (wrm (wX + iu) (wX + iu) (Luu (der nd) : 'M[F]_(nu (nm nd)))
        (wrm (wX + iu) ix ((Lxu (der nd) : 'M[F]_(n, nu (nm nd)))^T)
          (wrm ix (wX + iu) (Lxu (der nd) : 'M[F]_(n, nu (nm nd))) (wrm ix ix (Lxx (der nd) : 'M[F]_n) K)))))).
Proof.
move=> h1 h2 [hX hU hD]; split=> r c hr hw; rewrite /wrm.
- by rewrite !wrb_row_out ?hX //; slia.
- by rewrite !wrb_row_out ?hU //; slia.
- move=> h; case/orP: h => [/orP[h|h]|h].
  + by rewrite !wrb_row_out ?hD //; slia.
  + by rewrite !wrb_col_out ?hD //; slia.
  + rewrite wrb_col_out; last by slia.
    rewrite wrb_col_out; last by slia.
    by rewrite !wrb_row_out ?hD //; slia.
Qed.

(** the three groups of rows of the system from offset ix, iu on *)
Definition eqs (ix iu : nat) (K : buf F) (q p : vbuf F) : Prop :=
  [/\ forall i, (ix <= i)%N && (i < wX)%N -> prow K p i + dcol K p i = - q i,
      forall i, (wX + iu <= i)%N && (i < w)%N -> prow K p i + dcol K p i = - q i
    & forall i, (n + ix <= i)%N && (i < wX)%N -> prow K p (w + i) = - q (w + i)%N].

Lemma extract_hd_x p ix iu (l : seq node) tn :
  hd_x (fst (kk_extract wX w ix iu p l tn)) (snd (kk_extract wX w ix iu p l tn)) = hd_x l tn.
Proof. by case: l. Qed.
Lemma extract_hd_lam p ix iu (l : seq node) tn :
  (hd_lam (fst (kk_extract wX w ix iu p l tn)) (snd (kk_extract wX w ix iu p l tn)) : 'cV[F]_n) = seg n p (w + ix).
Proof. by case: l. Qed.
Lemma next_l_lam (l : seq node) tn : next_l (kkt_stages l tn) (kkt_final tn) = - (hd_lam l tn : 'cV[F]_n).
Proof. by case: l. Qed.
Lemma range_ord a m (P : nat -> Prop) : (forall i, (a <= i)%N && (i < a + m)%N -> P i) <-> (forall o : 'I_m, P (a + o)%N).
Proof.
split=> [h o|h i hi]; first by apply: h; have := ltn_ord o; slia.
have hm : (i - a < m)%N by slia.
by have := h (Ordinal hm); rewrite /=; have -> : (a + (i - a) = i)%N by slia.
Qed.
Lemma range_split a b c (P : nat -> Prop) : (a <= b <= c)%N ->
  (forall i, (a <= i)%N && (i < c)%N -> P i) <->
  (forall i, (a <= i)%N && (i < b)%N -> P i) /\ (forall i, (b <= i)%N && (i < c)%N -> P i).
Proof.
move=> h; split=> [H|[H1 H2] i hi]; first by split=> i hi; apply: H; slia.
by case: (ltnP i b) => e; [apply: H1|apply: H2]; slia.
Qed.
Lemma cv_ext m (u v : 'cV[F]_m) : u = v <-> forall o, u o 0 = v o 0.
Proof. by split=> [-> //|h]; apply/matrixP => i j; rewrite ord1. Qed.

Lemma segE m (p : vbuf F) a (o : 'I_m) : (seg m p a) o 0 = p (a + o)%N.
Proof. by rewrite mxE. Qed.
Lemma eq_iff (a b c d : F) : a - b = c - d -> (a = b <-> c = d).
Proof. by move=> h; split=> e; apply/eqP; rewrite -subr_eq0; [rewrite -h e subrr|rewrite h e subrr]. Qed.
Lemma iffA (a b c : F) : a + b = - c <-> c + a = - b.
Proof. by apply: eq_iff; mcfold F; ring. Qed.
Lemma iffX (a b l f c : F) : a + b + (l - f) = - c <-> c + a + b + - f = - l.
Proof. by apply: eq_iff; mcfold F; ring. Qed.
Lemma iffU (a b f c : F) : a + b + - f = - c <-> c + b + a + - f = 0.
Proof. by apply: eq_iff; mcfold F; ring. Qed.
Lemma iffD (x f g c : F) : x - f - g = - c <-> x = f + g + - c.
Proof. by apply: eq_iff; mcfold F; ring. Qed.
Lemma all_iff T (P Q : T -> Prop) : (forall o, P o <-> Q o) -> (forall o, P o) <-> (forall o, Q o).
Proof. by move=> h; split=> g o; apply/h. Qed.

Lemma fill_kkt ix iu (l : seq node) (tn : tnode) K q p d :
  (ix + n * (size l).+1)%N = wX -> (iu + sum_nu l)%N = wU -> clean ix iu K ->
  let r := kk_fill wX wU ix iu l tn K q in
  let e := kk_extract wX w ix iu p l tn in
  (eqs ix iu (fst r) (snd r) p /\ seg n p ix = d) <-> lq_kkt d (kkt_stages (fst e) (snd e)) (kkt_final (snd e)).
Proof.
elim: l ix iu K q d => [|nd l IH] ix iu K q d h1 h2 hc.
  have [hX hU hD] := hc; rewrite muln1 in h1; rewrite /= in h2; rewrite addn0 in h2.
  cbv zeta; rewrite /=; set K' := wrm _ _ _ _; set q' := wrv _ _ _.
  have row (o : 'I_n) : prow K' p (ix + o) = ((tLxx (tder tn) : 'M[F]_n) *m seg n p ix) o 0.
    rewrite mul_seg; apply: sum_one; first by slia.
    move=> c hcw; have ho := ltn_ord o; rewrite /K' /wrm wrb_row_in; last by slia.
    by case: (inr _ _ _) => //; rewrite hX //; slia.
  have col (o : 'I_n) : dcol K' p (ix + o) = p (w + ix + o)%N.
    have ho := ltn_ord o; rewrite /dcol.
    rewrite (@sum_delta F (ix + o) (fun c => p (w + c)%N) wX (fun j => K' (w + j)%N (ix + o)%N)) ?addnA //; first by slia.
    move=> j hj; rewrite /K' /wrm wrb_row_out; last by slia.
    by rewrite hD; [rewrite /delta Nat.eqb_sym|slia|slia|slia].
  have qq (o : 'I_n) : q' (ix + o)%N = (tLx (tder tn) : 'cV[F]_n) o 0.
    by rewrite /q' /wrv wrs_in ?entv_ord //; have := ltn_ord o; slia.
  have main : (forall o : 'I_n, prow K' p (ix + o) + dcol K' p (ix + o) = - q' (ix + o)%N) <->
     (tLx (tder tn) : 'cV[F]_n) + (tLxx (tder tn) : 'M[F]_n) *m seg n p ix = - seg n p (w + ix).
    rewrite cv_ext; apply: all_iff => o; rewrite row col qq addmxE oppmxE segE.
    exact: iffA.
  split.
    move=> [[eX _ _] ed]; split=> //; apply/main => o; apply: eX; have := ltn_ord o; slia.
  move=> [ed /main ex]; split=> //; split=> i hi; [|slia|slia].
  by move: i hi; rewrite -h1; apply/range_ord.
set K1 := wrm (w + n + ix) (wX + iu) (- (Fu (der nd) : 'M[F]_(n, nu (nm nd))))
    (wrm (w + n + ix) ix (- (Fx (der nd) : 'M[F]_n))
      (wrm (wX + iu) (wX + iu) (Luu (der nd) : 'M[F]_(nu (nm nd)))
        (wrm (wX + iu) ix ((Lxu (der nd) : 'M[F]_(n, nu (nm nd)))^T)
          (wrm ix (wX + iu) (Lxu (der nd) : 'M[F]_(n, nu (nm nd))) (wrm ix ix (Lxx (der nd) : 'M[F]_n) K))))).
set k := nu (nm nd) in h2 *.
have h1' : (ix + n + n * (size l).+1)%N = wX by move: h1; rewrite mulnS /=; slia.
have h2' : (iu + k + sum_nu l)%N = wU by move: h2; rewrite /=; slia.
have hnn : (n <= n * (size l).+1)%N by rewrite mulnS; slia.
have hc1 : clean (ix + n) (iu + k) K1 by apply: clean_step => //; slia.
have rX := @node_rowX nd l tn ix iu K q p h1 h2 hc.
have rU := @node_rowU nd l tn ix iu K q p h1 h2 hc.
have rD := @node_rowD nd l tn ix iu K q p h1 h2 hc.
have cX := @node_colX nd l tn ix iu K q p h1 h2 hc.
have cU := @node_colU nd l tn ix iu K q p h1 h2 hc.
cbv zeta.
set r := kk_fill wX wU ix iu (nd :: l) tn K q in rX rU rD cX cU *.
set q1 : vbuf F :=
  wrv (w + n + ix) (diff M (axnext (nm nd) (mem nd)) (hd_x l tn) : 'cV[F]_n)
    (wrv (wX + iu) (Lu (der nd) : 'cV[F]_k) (wrv ix (Lx (der nd) : 'cV[F]_n) q)).
have er : r = kk_fill wX wU (ix + n) (iu + k) l tn K1 q1 by [].
set e' := kk_extract wX w (ix + n) (iu + k) p l tn.
set d' := (Fx (der nd) : 'M[F]_n) *m seg n p ix + (Fu (der nd) : 'M[F]_(n, k)) *m seg k p (wX + iu)
   + - (diff M (axnext (nm nd) (mem nd)) (hd_x l tn) : 'cV[F]_n).
have := IH (ix + n)%N (iu + k)%N K1 q1 d' h1' h2' hc1; rewrite -er -/e' => {}IH.
have mX : (forall i, (ix <= i)%N && (i < ix + n)%N -> prow r.1 p i + dcol r.1 p i = - r.2 i) <->
  (Lx (der nd) : 'cV[F]_n) + (Lxx (der nd) : 'M[F]_n) *m seg n p ix + (Lxu (der nd) : 'M[F]_(n, k)) *m seg k p (wX + iu)
   + (Fx (der nd) : 'M[F]_n)^T *m - seg n p (w + (ix + n)) = - seg n p (w + ix).
  rewrite range_ord cv_ext; apply: all_iff => o; have [-> ->] := rX o; rewrite cX !addmxE oppmxE segE mulmxN oppmxE.
  exact: iffX.
have mU : (forall i, (wX + iu <= i)%N && (i < wX + iu + k)%N -> prow r.1 p i + dcol r.1 p i = - r.2 i) <->
  (Lu (der nd) : 'cV[F]_k) + (Luu (der nd) : 'M[F]_k) *m seg k p (wX + iu) + (Lxu (der nd) : 'M[F]_(n, k))^T *m seg n p ix
   + (Fu (der nd) : 'M[F]_(n, k))^T *m - seg n p (w + (ix + n)) = 0.
  rewrite range_ord cv_ext; apply: all_iff => o; have [-> ->] := rU o; rewrite cU !addmxE zeromxE mulmxN oppmxE.
  exact: iffU.
have mD : (forall i, (n + ix <= i)%N && (i < n + ix + n)%N -> prow r.1 p (w + i) = - r.2 (w + i)%N) <-> seg n p (ix + n) = d'.
  rewrite range_ord cv_ext; apply: all_iff => o; rewrite !addnA; have [-> ->] := rD o; rewrite /d' !addmxE oppmxE segE.
  exact: iffD.
have -> : lq_kkt d (kkt_stages (kk_extract wX w ix iu p (nd :: l) tn).1 (kk_extract wX w ix iu p (nd :: l) tn).2)
            (kkt_final (kk_extract wX w ix iu p (nd :: l) tn).2) =
  [/\ seg n p ix = d,
      (Lu (der nd) : 'cV[F]_k) + (Luu (der nd) : 'M[F]_k) *m seg k p (wX + iu) + (Lxu (der nd) : 'M[F]_(n, k))^T *m seg n p ix
       + (Fu (der nd) : 'M[F]_(n, k))^T *m next_l (kkt_stages e'.1 e'.2) (kkt_final e'.2) = 0,
      (Lx (der nd) : 'cV[F]_n) + (Lxx (der nd) : 'M[F]_n) *m seg n p ix + (Lxu (der nd) : 'M[F]_(n, k)) *m seg k p (wX + iu)
       + (Fx (der nd) : 'M[F]_n)^T *m next_l (kkt_stages e'.1 e'.2) (kkt_final e'.2) = - seg n p (w + ix)
    & lq_kkt ((Fx (der nd) : 'M[F]_n) *m seg n p ix + (Fu (der nd) : 'M[F]_(n, k)) *m seg k p (wX + iu)
       + - (diff M (axnext (nm nd) (mem nd)) (hd_x e'.1 e'.2) : 'cV[F]_n)) (kkt_stages e'.1 e'.2) (kkt_final e'.2)] by [].
rewrite next_l_lam extract_hd_lam extract_hd_x -/d'.
split.
- move=> [[eX eU eD] ed]; split=> //.
  + by apply/mU => i hi; apply: eU; slia.
  + by apply/mX => i hi; apply: eX; slia.
  + apply/IH; split; first split.
    * by move=> i hi; apply: eX; slia.
    * by move=> i hi; apply: eU; slia.
    * by move=> i hi; apply: eD; slia.
    * by apply/mD => i hi; apply: eD; slia.
- move=> [ed /mU eU /mX eX /IH [[eX' eU' eD'] /mD eD]]; split=> //; split.
  + by apply/(@range_split ix (ix + n) wX); [slia|split].
  + by apply/(@range_split (wX + iu) (wX + iu + k) w); [slia|split=> // i hi; apply: eU'; slia].
  + by apply/(@range_split (n + ix) (n + ix + n) wX); [slia|split=> // i hi; apply: eD'; slia].
Qed.
End Fill.

(** ** Content of the matrix over the life of an object *)
Section Inv.
Variable F : realFieldType.
Variable sq : F -> F.
Notation E := (ExactE sq).
Variable M : manifold E.
Notation n := (mndx M).
Notation node := (node M).
Notation tnode := (tnode M).

(** positions written by the loop, from the dimensions alone *)
Fixpoint Wfill (wX wU ix iu : nat) (ds : seq nat) : nat -> nat -> bool :=
  match ds with
  | [::] => Wb ix ix n n
  | k :: ds' =>
      Wor (Wb ix ix n n) (Wor (Wb ix (wX + iu)%N n k) (Wor (Wb (wX + iu)%N ix k n) (Wor (Wb (wX + iu)%N (wX + iu)%N k k)
        (Wor (Wb (wX + wU + n + ix)%N ix n n) (Wor (Wb (wX + wU + n + ix)%N (wX + iu)%N n k)
          (Wfill wX wU (ix + n)%N (iu + k)%N ds'))))))
  end.
Definition dims (l : seq node) : seq nat := [seq nu (nm nd) | nd <- l].

Lemma over_fill wX wU ix iu (l : seq node) tn (q : buf F -> vbuf F) :
  over (Wfill wX wU ix iu (dims l)) (fun K => fst (kk_fill wX wU ix iu l tn K (q K))).
Proof.
suff [V h] : exists V, forall K q, forall r c, fst (kk_fill wX wU ix iu l tn K q) r c = if Wfill wX wU ix iu (dims l) r c then V r c else K r c.
  by exists V => K r c; apply: h.
elim: l ix iu {q} => [|nd l IH] ix iu /=.
  by have [V h] := over_wrb ix ix n n (ent (tLxx (tder tn) : 'M[F]_n)); exists V => K q r c; exact: h.
have [V h] := IH (ix + n)%N (iu + nu (nm nd))%N.
have o0 : over (Wfill wX wU (ix + n) (iu + nu (nm nd)) (dims l))
   (fun K : buf F => fun r c => if Wfill wX wU (ix + n) (iu + nu (nm nd)) (dims l) r c then V r c else K r c) by exists V.
have [V' h'] :=
  over_comp (over_wrb ix ix n n (ent (Lxx (der nd) : 'M[F]_n)))
 (over_comp (over_wrb ix (wX + iu)%N n (nu (nm nd)) (ent (Lxu (der nd) : 'M[F]_(n, nu (nm nd)))))
 (over_comp (over_wrb (wX + iu)%N ix (nu (nm nd)) n (ent ((Lxu (der nd) : 'M[F]_(n, nu (nm nd)))^T)))
 (over_comp (over_wrb (wX + iu)%N (wX + iu)%N (nu (nm nd)) (nu (nm nd)) (ent (Luu (der nd) : 'M[F]_(nu (nm nd)))))
 (over_comp (over_wrb (wX + wU + n + ix)%N ix n n (ent (- (Fx (der nd) : 'M[F]_n))))
 (over_comp (over_wrb (wX + wU + n + ix)%N (wX + iu)%N n (nu (nm nd)) (ent (- (Fu (der nd) : 'M[F]_(n, nu (nm nd)))))) o0))))).
by exists V' => K q r c; rewrite -h' h.
Qed.

Definition UR (w wX r c : nat) : bool := inr 0 w r && inr w wX c.
(** what is zero: everything never written, except the mirrored block *)
Definition kk_zeros (ds : seq nat) (wX : nat) (K : buf F) : Prop :=
  let wU := sumn ds in
  forall r c, Wor (Wb (wX + wU)%N 0 wX wX) (Wfill wX wU 0 0 ds) r c = false -> UR (wX + wU) wX r c = false -> K r c = 0.

Lemma sum_nu_dims (l : seq node) : sum_nu l = sumn (dims l).
Proof. by elim: l => //= nd l ->. Qed.

Lemma fill_ref wX wU ix iu (l : seq node) tn K1' K2' (q0 : vbuf F) :
  snd (kk_fill wX wU ix iu l tn K1' q0) = snd (kk_fill wX wU ix iu l tn K2' q0).
Proof. by elim: l ix iu K1' K2' q0 => //= nd l' IH ix iu A B q'; exact: IH. Qed.

Section Calc.
Variables (x0 : mX M) (l : seq node) (tn : tnode) (K : buf F) (q : vbuf F).
Let wX := all_x l.
Let wU := sum_nu l.
Let w := (wX + wU)%N.
Hypothesis hz : kk_zeros (dims l) wX K.
Let q0 := wrv w (diff M x0 (hd_x l tn) : 'cV[F]_n) q.
Let r := kk_fill wX wU 0 0 l tn (kk_ident w wX K) q0.
Let Z : buf F := fun _ _ => 0.
Let r' := kk_fill wX wU 0 0 l tn (kk_ident w wX Z) q0.
Let K2 := kk_mirror w wX r.1.

Let hwX : (0 + n * (size l).+1)%N = wX. Proof. by []. Qed.
Let hwU : (0 + sum_nu l)%N = wU. Proof. by []. Qed.
Let hn : (n <= wX)%N. Proof. by rewrite -hwX mulnS; slia. Qed.

Lemma over_all : over (Wor (Wb w 0 wX wX) (Wfill wX wU 0 0 (dims l))) (fun K' => fst (kk_fill wX wU 0 0 l tn (kk_ident w wX K') q0)).
Proof. by have := over_comp (over_wrb w 0 wX wX (fun r c => if Nat.eqb r c then 1 else 0 : F)) (over_fill wX wU 0 0 l tn (fun _ => q0)). Qed.

Lemma zeros_kept : kk_zeros (dims l) wX K2.
Proof.
move=> i c hW hU; rewrite -sum_nu_dims -/wU -/w in hW hU; rewrite /K2 /kk_mirror -/(UR w wX i c) hU.
by have := @over_out F _ _ K i c over_all hW; rewrite -/r /= => ->; apply: hz; rewrite -sum_nu_dims.
Qed.
Lemma as_if_fresh i c : UR w wX i c = false -> r.1 i c = r'.1 i c.
Proof.
move=> hU; have [V h] := over_all; rewrite /r /r' !h; case e: (Wor _ _ _ _) => //.
by apply: hz; rewrite -sum_nu_dims.
Qed.
Lemma clean0 : clean M wX wU 0 0 (kk_ident w wX Z).
Proof.
split=> i c hi hcw.
- by rewrite /kk_ident wrb_row_out //; slia.
- by rewrite /kk_ident wrb_row_out //; slia.
- move=> _; rewrite /kk_ident wrb_row_in; last by slia.
  case: (inrP 0 wX c) => h; first by rewrite /delta (_ : (c - 0)%coq_nat = c) //; slia.
  by rewrite /delta; case: Nat.eqb_spec => // e; slia.
Qed.

Lemma sum_total N1 N2 (g : nat -> F) : \sum_(c < N1 + N2) g c = \sum_(c < N1) g c + \sum_(c < N2) g (N1 + c)%N.
Proof. by rewrite big_split_ord. Qed.

Lemma system_iff (p : vbuf F) :
  let e := kk_extract wX w 0 0 p l tn in
  as_mx (w + wX) K2 *m as_cv (w + wX) p = - as_cv (w + wX) r.2 <-> direction_solves x0 (mkTraj e.1 e.2).
Proof.
cbv zeta; rewrite /direction_solves; cbn [run trm]; rewrite extract_hd_x.
rewrite -(@fill_kkt F sq M wX wU 0 0 l tn _ q0 p _ hwX hwU clean0).
rewrite -/r' (cv_ext (as_mx _ _ *m _)).
have e2 : r.2 = r'.2 by exact: fill_ref.
have low i : (i < w)%N -> (\sum_(c < w + wX) K2 i c * p c) = prow wX wU r'.1 p i + dcol wX wU r'.1 p i.
  move=> hi; rewrite (sum_total w wX (fun c => K2 i c * p c)); congr (_ + _); apply: eq_bigr => c _; have hcc := ltn_ord c.
    rewrite /K2 /kk_mirror (_ : inr w wX c = false) ?andbF; last by apply: inr_out; slia.
    by rewrite as_if_fresh // /UR (_ : inr w wX c = false) ?andbF //; apply: inr_out; slia.
  rewrite /K2 /kk_mirror (_ : inr w wX (w + c) = true); last by apply/inrP; slia.
  rewrite (_ : inr 0 w i = true) /=; last by apply/inrP; slia.
  by rewrite as_if_fresh // /UR (_ : inr 0 w (w + c) = false) //; apply: inr_out; slia.
have high i : (i < wX)%N -> (\sum_(c < w + wX) K2 (w + i)%N c * p c) = prow wX wU r'.1 p (w + i).
  move=> hi; rewrite (sum_total w wX (fun c => K2 (w + i)%N c * p c)).
  have nU c : UR w wX (w + i) c = false by rewrite /UR (_ : inr 0 w (w + i) = false) //; apply: inr_out; slia.
  have -> : \sum_(c < w) K2 (w + i)%N c * p c = prow wX wU r'.1 p (w + i).
    apply: eq_bigr => c _; rewrite /K2 /kk_mirror -/(UR w wX (w + i) c) nU.
    by rewrite as_if_fresh.
  rewrite big1 ?addr0 // => c _; rewrite /K2 /kk_mirror -/(UR w wX (w + i) (w + c)) nU as_if_fresh //.
  have [_ _ f3] := @fill_out F sq M wX wU 0 0 l tn (kk_ident w wX Z) q0 (eq_leq hwX) (eq_leq hwU).
  rewrite /r' f3; last by slia.
  by rewrite /kk_ident wrb_col_out ?mul0r //; rewrite /w; slia.
have first (o : 'I_n) : prow wX wU r'.1 p (w + o) = p o /\ r'.2 (w + o)%N = (diff M x0 (hd_x l tn) : 'cV[F]_n) o 0.
  have ho := ltn_ord o.
  have [f1 _ _] := @fill_out F sq M wX wU 0 0 l tn (kk_ident w wX Z) q0 (eq_leq hwX) (eq_leq hwU).
  have g c : r'.1 (w + o)%N c = kk_ident w wX Z (w + o)%N c /\ r'.2 (w + o)%N = q0 (w + o)%N.
    by apply: f1; apply: Or33; slia.
  split; last by have [_ ->] := g 0%N; rewrite /q0 /wrv wrs_in ?entv_ord //; slia.
  rewrite /prow; apply: sum_delta; first by slia.
  move=> c hcw; have [-> _] := g c; rewrite /kk_ident wrb_row_in; last by slia.
  case: (inrP 0 wX c) => h; first by rewrite (_ : (c - 0)%coq_nat = c) //; slia.
  by case: Nat.eqb_spec => // ee; slia.
have tot (o : 'I_(w + wX)) : ((as_mx (w + wX) K2 *m as_cv (w + wX) p) o 0 = (- as_cv (w + wX) r.2) o 0) <->
    (\sum_(c < w + wX) K2 o c * p c = - r'.2 o).
  rewrite !mxE e2 (eq_bigr (fun c : 'I_(w + wX) => K2 o c * p c)) // => c _; by rewrite !mxE.
split.
  move=> H.
  have H' i : (i < w + wX)%N -> \sum_(c < w + wX) K2 i c * p c = - r'.2 i.
    by move=> hi; have /tot := H (Ordinal hi).
  split; last first.
    rewrite cv_ext => o; rewrite segE oppmxE add0n; have ho := ltn_ord o.
    have [<- <-] := first o; rewrite -high; last by slia.
    by apply: H'; slia.
  split=> i hi; [rewrite -low; [apply: H'|]|rewrite -low; [apply: H'|]|rewrite -high; [apply: H'|]]; slia.
move=> [[eX eU eD] ed] o; apply/tot; have ho := ltn_ord o.
case: (ltnP o w) => how.
  rewrite low //; case: (ltnP o wX) => hox; [apply: eX|apply: eU]; slia.
have -> : (o : nat) = (w + (o - w))%N by slia.
rewrite high; last by slia.
case: (ltnP (o - w) n) => hon; last by apply: eD; slia.
have [h1 h2] := first (Ordinal hon); rewrite /= in h1 h2; rewrite h1 h2.
by move/cv_ext: ed => /(_ (Ordinal hon)); rewrite segE oppmxE add0n.
Qed.
End Calc.
End Inv.
