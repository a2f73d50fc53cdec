(** * Buffers filled by block assignments: sums over blocks, values of segments. *)
From Coq Require Import Ring Field ZArith List Arith.
Set Warnings "-notation-overridden,-ambiguous-paths".
From mathcomp Require Import all_ssreflect all_algebra.
From Verif Require Import FieldTac Eigen EigenExact Problem LQSpec SsrLia Flat KKT KKTSys PROXQP.

Set Implicit Arguments.
Unset Strict Implicit.
Unset Printing Implicit Defensive.

Import Order.TTheory GRing.Theory Num.Theory.
Local Open Scope ring_scope.

Section Blocks.
Variable F : realFieldType.
Implicit Types (b : blk F) (bs : seq (blk F)) (K : buf F) (u v : vbuf F).

Definition inb b (r c : nat) : bool := inr (bi b) (bm b) r && inr (bj b) (bk b) c.
Definition cover bs (r c : nat) : bool := has (fun b => inb b r c) bs.
Fixpoint disj bs : Prop :=
  match bs with
  | [::] => True
  | b :: bs' => (forall r c, inb b r c -> cover bs' r c = false) /\ disj bs'
  end.
Definition within (N1 N2 : nat) b : bool := (bi b + bm b <= N1)%N && (bj b + bk b <= N2)%N.

Definition bil (N1 N2 : nat) K u v : F := \sum_(r < N1) \sum_(c < N2) u r * K r c * v c.
Definition bterm b u v : F := dot (seg (bm b) u (bi b)) (bA b *m seg (bk b) v (bj b)).
Definition bsum bs u v : F := \sum_(b <- bs) bterm b u v.

Lemma wrE K b r c : wr K b r c = if inb b r c then ent (bA b) (r - bi b) (c - bj b) else K r c.
Proof. by []. Qed.
Lemma btermE b u v : bterm b u v = \sum_(i < bm b) \sum_(j < bk b) u (bi b + i)%N * ent (bA b) i j * v (bj b + j)%N.
Proof.
rewrite /bterm /dot mxE; apply: eq_bigr => i _; rewrite !mxE big_distrr /=.
by apply: eq_bigr => j _; rewrite !mxE ent_ord mulrA.
Qed.
Lemma bil_wr N1 N2 K b u v : within N1 N2 b -> (forall r c, inb b r c -> K r c = 0) ->
  bil N1 N2 (wr K b) u v = bil N1 N2 K u v + bterm b u v.
Proof.
case/andP => h1 h2 hz; rewrite btermE.
rewrite -(@sum_inr F (bi b) (bm b) N1 (fun i => \sum_(j < bk b) u (bi b + i)%N * ent (bA b) i j * v (bj b + j)%N) h1).
rewrite /bil -big_split /=; apply: eq_bigr => r _.
case: (inrP (bi b) (bm b) r) => hr; last first.
  rewrite addr0; apply: eq_bigr => c _; rewrite wrE /inb.
  by case: (inrP (bi b) (bm b) r) => // hr'; case: hr.
rewrite -(@sum_inr F (bj b) (bk b) N2 (fun j => u (bi b + (r - bi b))%N * ent (bA b) (r - bi b) j * v (bj b + j)%N) h2).
rewrite -big_split /=; apply: eq_bigr => c _; rewrite wrE.
have e1 : (bi b + (r - bi b))%N = r by slia.
case: (inrP (bj b) (bk b) c) => hc.
  have ei : inb b r c by rewrite /inb; apply/andP; split; apply/inrP.
  by rewrite ei (hz _ _ ei) mulr0 mul0r add0r e1 (_ : (bj b + (c - bj b))%N = c) //; slia.
by rewrite addr0 /inb; case: (inrP (bj b) (bk b) c) => // _; rewrite andbF.
Qed.
Lemma bil_wrl N1 N2 bs K u v : all (within N1 N2) bs -> disj bs -> (forall r c, cover bs r c -> K r c = 0) ->
  bil N1 N2 (wrl bs K) u v = bil N1 N2 K u v + bsum bs u v.
Proof.
elim: bs K => [|b bs IH] K /= hw hd hz; first by rewrite /bsum big_nil addr0.
case/andP: hw => hw1 hw2; case: hd => hd1 hd2.
rewrite /wrl /= -/(wrl bs _) IH // => [|r c h].
  rewrite bil_wr // /bsum ?big_cons ?addrA // => r c h; apply: hz; by rewrite h.
rewrite wrE; case e: (inb b r c); first by rewrite hd1 in h.
by apply: hz; rewrite h orbT.
Qed.
Definition Z2 : buf F := fun _ _ => 0.
Lemma bil0 N1 N2 u v : bil N1 N2 Z2 u v = 0.
Proof. by rewrite /bil big1 // => r _; rewrite big1 // => c _; rewrite mulr0 mul0r. Qed.
Lemma wrl_out bs K r c : cover bs r c = false -> wrl bs K r c = K r c.
Proof.
elim: bs K => [|b bs IH] K //= /norP [h1 h2]; rewrite /wrl /= -/(wrl bs _) IH; last exact: negbTE.
by rewrite wrE (negbTE h1).
Qed.
Lemma wrl_same bs K K' : (forall r c, cover bs r c = false -> K r c = K' r c) -> forall r c, wrl bs K r c = wrl bs K' r c.
Proof.
elim: bs K K' => [|b bs IH] K K' /= h r c; first exact: h.
rewrite /wrl /= -!/(wrl bs _); apply: IH => i j hij; rewrite !wrE; case e: (inb b i j) => //.
by apply: h; rewrite e hij.
Qed.
Lemma bil_ext N1 N2 K K' u v : (forall r c, K r c = K' r c) -> bil N1 N2 K u v = bil N1 N2 K' u v.
Proof. by move=> h; apply: eq_bigr => r _; apply: eq_bigr => c _; rewrite h. Qed.
(** a buffer that is zero outside the blocks *)
Lemma bil_filled N1 N2 bs K u v : all (within N1 N2) bs -> disj bs -> (forall r c, cover bs r c = false -> K r c = 0) ->
  bil N1 N2 (wrl bs K) u v = bsum bs u v.
Proof.
move=> hw hd hz; rewrite (@bil_ext N1 N2 _ (wrl bs Z2)); last by apply: wrl_same.
by rewrite bil_wrl // bil0 add0r.
Qed.
(** positions alone *)
Definition pos b := (bi b, bj b, bm b, bk b).
Lemma cover_pos bs bs' r c : map pos bs = map pos bs' -> cover bs r c = cover bs' r c.
Proof.
elim: bs bs' => [|b bs IH] [|b' bs'] //= [e1 e2 e3 e4 /IH e5].
by rewrite -/(cover bs r c) -/(cover bs' r c) e5 /inb e1 e2 e3 e4.
Qed.
Lemma cover_cat bs bs' r c : cover (bs ++ bs') r c = cover bs r c || cover bs' r c.
Proof. exact: has_cat. Qed.
Lemma bsum_cons b bs u v : bsum (b :: bs) u v = bterm b u v + bsum bs u v.
Proof. exact: big_cons. Qed.
Lemma bsum_nil u v : bsum [::] u v = 0.
Proof. exact: big_nil. Qed.
Lemma bsum_cat bs bs' u v : bsum (bs ++ bs') u v = bsum bs u v + bsum bs' u v.
Proof. exact: big_cat. Qed.

(** bilinear forms and matrices *)
Lemma bil_row N1 N2 K u v : bil N1 N2 K u v = \sum_(r < N1) u r * \sum_(c < N2) K r c * v c.
Proof. by apply: eq_bigr => r _; rewrite big_distrr /=; apply: eq_bigr => c _; rewrite mulrA. Qed.
Lemma bil_col N1 N2 K u v : bil N1 N2 K u v = \sum_(c < N2) v c * \sum_(r < N1) K r c * u r.
Proof.
rewrite /bil exchange_big /=; apply: eq_bigr => c _; rewrite big_distrr /=; apply: eq_bigr => r _.
by rewrite [v c * _]mulrC [K r c * _]mulrC.
Qed.
Lemma bil_rowT N K u v : bil N N K u v = \sum_(r < N) u r * (mxof N N K *m as_cv N v) r 0.
Proof. by rewrite bil_row; apply: eq_bigr => r _; congr (_ * _); rewrite mxE; apply: eq_bigr => c _; rewrite !mxE. Qed.
Lemma bil_mul N1 N2 K u v : bil N1 N2 K u v = \sum_(r < N1) u r * (mxof N1 N2 K *m as_cv N2 v) r 0.
Proof. by rewrite bil_row; apply: eq_bigr => r _; congr (_ * _); rewrite mxE; apply: eq_bigr => c _; rewrite !mxE. Qed.
Lemma bil_tmul N1 N2 K u v : bil N1 N2 K u v = \sum_(c < N2) v c * ((mxof N1 N2 K)^T *m as_cv N1 u) c 0.
Proof. by rewrite bil_col; apply: eq_bigr => r _; congr (_ * _); rewrite mxE; apply: eq_bigr => c _; rewrite !mxE. Qed.
End Blocks.

Section Segs.
Variable T : Type.
Implicit Types (s : sgm T) (S : seq (sgm T)) (q : vbuf T).
Definition ins s (r : nat) : bool := inr (si s) (sn s) r.
Definition scover S (r : nat) : bool := has (fun s => ins s r) S.
Fixpoint sdisj S : Prop :=
  match S with
  | [::] => True
  | s :: S' => (forall r, ins s r -> scover S' r = false) /\ sdisj S'
  end.
Lemma wsg_in q s (i : 'I_(sn s)) : wsg q s (si s + i)%N = @sv T s i.
Proof.
rewrite /wsg (_ : (si s + i - si s)%N = i); last by slia.
by rewrite valK (_ : Nat.leb _ _ = true) //; apply/Nat.leb_le; slia.
Qed.
Lemma wsg_out q s r : ins s r = false -> wsg q s r = q r.
Proof.
rewrite /ins /inr => h; rewrite /wsg; case: insubP => // i hi _.
case: (Nat.leb_spec (si s) r) => // h'; move: h; rewrite (_ : Nat.leb _ _ = true); last by apply/Nat.leb_le.
by rewrite (_ : Nat.ltb _ _ = true) //; apply/Nat.ltb_lt; slia.
Qed.
Lemma wsl_out S q r : scover S r = false -> wsl S q r = q r.
Proof.
elim: S q => [|s S IH] q //= /norP [h1 h2]; rewrite /wsl /= -/(wsl S _) IH; last exact: negbTE.
by rewrite wsg_out // (negbTE h1).
Qed.
Lemma wsl_at S q s (i : 'I_(sn s)) : sdisj S -> List.In s S -> wsl S q (si s + i)%N = @sv T s i.
Proof.
have hi : ins s (si s + i) by rewrite /ins inr_in //; have := ltn_ord i; slia.
elim: S q => [|s' S IH] q //= [hd hS] [e|h]; rewrite /wsl /= -/(wsl S _); last exact: IH.
by rewrite e in hd *; rewrite wsl_out ?wsg_in // hd.
Qed.
Lemma wsl_same S q q' : (forall r, scover S r = false -> q r = q' r) -> forall r, wsl S q r = wsl S q' r.
Proof.
elim: S q q' => [|s S IH] q q' /= h r; first exact: h.
rewrite /wsl /= -!/(wsl S _); apply: IH => a ha; case e: (ins s a); last first.
  by rewrite !wsg_out //; apply: h; rewrite e ha.
move/inrP: e => e; have hl : (a - si s < sn s)%N by slia.
by rewrite (_ : a = (si s + (Ordinal hl : 'I_(sn s)))%N) ?wsg_in //=; slia.
Qed.
Definition spos s := (si s, sn s).
Lemma scover_pos S S' r : map spos S = map spos S' -> scover S r = scover S' r.
Proof.
elim: S S' => [|s S IH] [|s' S'] //= [e1 e2 /IH e5].
by rewrite -/(scover S r) -/(scover S' r) e5 /ins e1 e2.
Qed.
End Segs.

Section Sums.
Variable F : realFieldType.
Implicit Types (s : sgm F) (S : seq (sgm F)) (q d : vbuf F).
Definition sterm s d : F := \sum_(i < sn s) d (si s + i)%N * @sv F s i.
Definition ssum S d : F := \sum_(s <- S) sterm s d.
Definition swithin (N : nat) s : bool := (si s + sn s <= N)%N.
Lemma sterm_dot a m (v : 'cV[F]_m) d : sterm (Sgm a m (fun i => v i 0)) d = dot (seg m d a) v.
Proof. by rewrite /sterm /dot mxE; apply: eq_bigr => i _; rewrite !mxE. Qed.
Lemma ssum_cons s S d : ssum (s :: S) d = sterm s d + ssum S d.
Proof. exact: big_cons. Qed.
Lemma ssum_nil d : ssum [::] d = 0.
Proof. exact: big_nil. Qed.
Lemma ssum_cat S S' d : ssum (S ++ S') d = ssum S d + ssum S' d.
Proof. exact: big_cat. Qed.
Definition dlt (a r : nat) : F := if Nat.eqb a r then 1 else 0.
Lemma sum_dlt N a (f : nat -> F) : (a < N)%N -> \sum_(r < N) dlt a r * f r = f a.
Proof. by move=> h; exact: (@sum_delta F a f N (dlt a)). Qed.
Lemma sterm_dlt_in s (i : 'I_(sn s)) : sterm s (dlt (si s + i)) = @sv F s i.
Proof.
rewrite /sterm (bigD1 i) //= {1}/dlt Nat.eqb_refl mul1r big1 ?addr0 // => j hj.
rewrite /dlt (_ : Nat.eqb _ _ = false) ?mul0r //; apply/Nat.eqb_neq => e; case/negP: hj; apply/eqP.
by apply: val_inj => /=; slia.
Qed.
Lemma sterm_dlt_out s a : ins s a = false -> sterm s (dlt a) = 0.
Proof.
move=> h; rewrite /sterm big1 // => j _; rewrite /dlt (_ : Nat.eqb _ _ = false) ?mul0r //.
by apply/Nat.eqb_neq => e; move: h; rewrite e /ins inr_in //; have := ltn_ord j; slia.
Qed.
Lemma ssum_dlt_out S a : scover S a = false -> ssum S (dlt a) = 0.
Proof.
elim: S => [|s S IH] /=; first by rewrite ssum_nil.
by case/norP => h1 h2; rewrite ssum_cons sterm_dlt_out ?IH ?addr0 //; exact: negbTE.
Qed.
Lemma ssum_dlt_in S s (i : 'I_(sn s)) : sdisj S -> List.In s S -> ssum S (dlt (si s + i)) = @sv F s i.
Proof.
have hi : ins s (si s + i) by rewrite /ins inr_in //; have := ltn_ord i; slia.
elim: S => [|s' S IH] //= [hd hS] [e|h]; rewrite ssum_cons.
  by rewrite e in hd *; rewrite sterm_dlt_in ssum_dlt_out ?addr0 // hd.
rewrite sterm_dlt_out ?add0r ?IH //; apply/negP => h'; have := hd _ h'.
have -> // : scover S (si s + i).
elim: S {IH hS hd} h => //= s1 S IH [->|/IH h]; first by rewrite hi.
by rewrite -/(scover S _) h orbT.
Qed.
(** a functional of d that is a sum over disjoint segments *)
Lemma func_at N (f : nat -> F) S : (forall d, \sum_(r < N) d r * f r = ssum S d) -> sdisj S -> all (swithin N) S ->
  forall s (i : 'I_(sn s)), List.In s S -> f (si s + i)%N = @sv F s i.
Proof.
move=> H hd hw s i hs; rewrite -(@ssum_dlt_in S s i hd hs) -H sum_dlt //.
have : swithin N s by elim: S hw hs {H hd} => //= s1 S IH /andP [h1 h2] [<-|] //; exact: IH.
by rewrite /swithin; have := ltn_ord i; slia.
Qed.
Lemma func_zero N (f : nat -> F) S : (forall d, \sum_(r < N) d r * f r = ssum S d) -> sdisj S -> all (swithin N) S ->
  ((forall r, (r < N)%N -> f r = 0) <-> (forall s, List.In s S -> forall i, @sv F s i = 0)).
Proof.
move=> H hd hw; split.
  move=> h s hs i; rewrite -(func_at H hd hw) // h //.
  have : swithin N s by elim: S hw hs {H hd} => //= s1 S IH /andP [h1 h2] [<-|] //; exact: IH.
  by rewrite /swithin; have := ltn_ord i; slia.
move=> h r hr; rewrite -(@sum_dlt N r f hr) H.
elim: S h {H hd hw} => [|s S IH] h; first exact: ssum_nil.
rewrite ssum_cons IH; last by move=> s' hs' i; apply: h; right.
rewrite addr0 /sterm big1 // => i _; rewrite h ?mulr0 //; by left.
Qed.
Lemma vsum_filled N S q d : all (swithin N) S -> sdisj S -> (forall r, scover S r = false -> q r = 0) ->
  \sum_(r < N) d r * wsl S q r = ssum S d.
Proof.
have add s q' : swithin N s -> (forall r, ins s r -> q' r = 0) ->
    \sum_(r < N) d r * wsg q' s r = \sum_(r < N) d r * q' r + sterm s d.
  move=> hw hz; rewrite /sterm.
  pose g i := d (si s + i)%N * (if insub i is Some j then @sv F s j else 0).
  rewrite (eq_bigr (fun i : 'I_(sn s) => g i)); last by move=> i _; rewrite /g valK.
  rewrite -(@sum_inr F (si s) (sn s) N g hw) -big_split /=; apply: eq_bigr => r _.
  case: (inrP (si s) (sn s) r) => h; last first.
    by rewrite addr0 wsg_out // /ins; apply/inrP.
  have hh : ins s r by apply/inrP.
  have hl : (r - si s < sn s)%N by slia.
  rewrite (hz _ hh) mulr0 add0r /g (_ : (si s + (r - si s))%N = r); last by slia.
  by congr (_ * _); rewrite -[in LHS](_ : (si s + (Ordinal hl : 'I_(sn s)))%N = r) ?wsg_in ?insubT //=; slia.
have gen q' : all (swithin N) S -> sdisj S -> (forall r, scover S r -> q' r = 0) ->
    \sum_(r < N) d r * wsl S q' r = \sum_(r < N) d r * q' r + ssum S d.
  elim: S q' => [|s S IH] q' /= hw hd hz; first by rewrite ssum_nil addr0.
  case/andP: hw => hw1 hw2; case: hd => hd1 hd2.
  rewrite /wsl /= -/(wsl S _) IH // => [|r h].
    by rewrite add // ?ssum_cons ?addrA // => r h; apply: hz; rewrite h.
  rewrite wsg_out; first by apply: hz; rewrite h orbT.
  by apply/negP => h'; rewrite hd1 in h.
move=> hw hd hz; have z0 : \sum_(r < N) d r * (fun _ => 0) r = 0 by rewrite big1 // => r _; rewrite mulr0.
have := gen (fun _ => 0) hw hd (fun _ _ => erefl); rewrite z0 add0r => <-.
by apply: eq_bigr => r _; congr (_ * _); exact: wsl_same.
Qed.
End Sums.
