(** * Property C20: the parameter setters. *)
From Coq Require Import List ZArith.
Set Warnings "-notation-overridden,-ambiguous-paths".
From mathcomp Require Import all_ssreflect all_algebra.
From Verif Require Import Eigen EigenExact ExactLemmas EigenFloat Problem DDP FDDP SQP Init FDDPInit Witness AdmmWitness Setters SetSpec.

Set Implicit Arguments.
Unset Strict Implicit.
Unset Printing Implicit Defensive.

Import Order.TTheory GRing.Theory Num.Theory.
Local Open Scope ring_scope.

Section S.
Variable F : realFieldType.
Variable sq : F -> F.
Notation E := (ExactE sq).

Lemma alphas_okP (prev : F) (l : list F) : alphas_ok (E := E) prev l = true <-> decreasing prev l.
Proof.
elim: l prev => [|a l IH] prev //=.
rewrite /rge /=; case: leP => /= h1; first by split=> // -[[]].
by case: leP => /= h2; [split=> // -[[]]|rewrite IH; split=> [h|[]]].
Qed.

(** C20.  For every setter call on every object (except set_alphas of an empty
    vector, which is undefined): it returns exactly when the value is in the
    documented range, then every getter returns the assigned value if the call
    assigns that parameter and its old value otherwise; if it raises, the object
    is unchanged. *)
Theorem C20_setter_call (k : call E) (c : fcfg E) : k <> CallAlphas nil ->
  match exec k c with
  | SetDone c' => documented k /\ others c' = others c /\
      forall p, get p c' = match assigns k p with Some v => v | None => get p c end
  | SetRaise c' => ~ documented k /\ c' = c
  | SetUB => False
  end.
Proof.
case: k => [v|v|v|v|v|l|v|v|v|v|v] hk /=.
- rewrite /set_reg_incfactor /=; case: leP => h; first by split=> //=; rewrite ltNge h.
  by do 2 split=> //; case.
- rewrite /set_reg_decfactor /=; case: leP => h; first by split=> //=; rewrite ltNge h.
  by do 2 split=> //; case.
- rewrite /set_regfactor /set_reg_incfactor /set_reg_decfactor /=; case: leP => h; first by split=> //=; rewrite ltNge h.
  by do 2 split=> //; case.
- rewrite /set_reg_min /rgt /=; case: ltP => h; first by split=> //=; rewrite leNgt h.
  by do 2 split=> //; case.
- rewrite /set_reg_max /rgt /=; case: ltP => h; first by split=> //=; rewrite leNgt h.
  by do 2 split=> //; case.
- case: l hk => [//|a l] _; rewrite /set_alphas; case e: (alphas_ok a l).
    by split; [exists a, l; split=> //; exact/alphas_okP | split=> //; case].
  by split=> // -[a' [l' [[<- <-] /alphas_okP]]]; rewrite e.
- rewrite /set_th_stepdec /rge /rgt /=; case: (leP (v : F) 0) => h1 /=; first by split=> //= -[].
  case: (ltP 1 (v : F)) => h2; first by split=> //= -[_].
  by do 2 split=> //; case.
- rewrite /set_th_stepinc /rge /rgt /=; case: (leP (v : F) 0) => h1 /=; first by split=> //= -[].
  case: (ltP 1 (v : F)) => h2; first by split=> //= -[_].
  by do 2 split=> //; case.
- rewrite /set_th_grad /rgt /=; case: ltP => h; first by split=> //=; rewrite leNgt h.
  by do 2 split=> //; case.
- rewrite /set_th_acceptnegstep /rgt /=; case: ltP => h; first by split=> //=; rewrite leNgt h.
  by do 2 split=> //; case.
- by do 2 split=> //; case.
Qed.

(** C20, sequences of calls: every getter returns the value of the last call in
    range that assigns it (or the initial one); a client that never passes an empty
    vector never meets undefined behaviour. *)
Theorem C20_any_sequence (ks : list (call E)) (c c' : fcfg E) : ~ List.In (CallAlphas nil) ks ->
  client ks c c' -> others c' = others c /\ forall p, holds ks p (get p c) (get p c').
Proof.
move=> hn hc; elim: hc hn => [c0|k ks0 c0 c1 c2 he hc IH] hn; first by split=> // p; exact: holds_nil.
have [|ho ih] := IH; first by move=> h; apply: hn; right.
have := @C20_setter_call k c0 (fun e => hn (or_introl (esym (esym e)))).
case: he => -> /=.
- move=> [hd [ho1 hg]]; split; first by rewrite ho.
  move=> p; have := ih p; rewrite hg; case ea: (assigns k p) => [v|] h; first exact: holds_set ea h.
  exact: holds_other h.
- by move=> [hd e]; subst c1; split=> // p; apply: holds_other.
Qed.
Lemma C20_no_undefined (ks : list (call E)) (c : fcfg E) : ~ List.In (CallAlphas nil) ks -> exists c', client ks c c'.
Proof.
elim: ks c => [|k ks IH] c hn; first by exists c; exact: client_nil.
have := @C20_setter_call k c (fun e => hn (or_introl (esym (esym e)))).
have hn' : ~ List.In (CallAlphas (E := E) nil) ks by move=> h; apply: hn; right.
case e: (exec k c) => [c1|c1|] // _; have [c' hc] := IH c1 hn'; exists c'; apply: client_cons hc; rewrite e; by [left|right].
Qed.
(** ... and parameters in range stay in range. *)
Theorem C20_range_invariant (ks : list (call E)) (c c' : fcfg E) : ~ List.In (CallAlphas nil) ks ->
  client ks c c' -> in_range c -> in_range c'.
Proof.
move=> hn hc; elim: hc hn => [//|k ks0 c0 c1 c2 he hc IH] hn hr.
apply: IH; first by move=> h; apply: hn; right.
have := @C20_setter_call k c0 (fun e => hn (or_introl (esym (esym e)))).
case: he => e; rewrite e; last by move=> [_ e1]; subst c1.
move=> [hd [_ hg]].
move: hr => [r1 r2 r3 [r4 r5 r6 [r7 r8 r9]]].
have g1 := hg Incfactor; have g2 := hg Decfactor; have g3 := hg RegMin; have g4 := hg RegMax; have g5 := hg Alphas.
have g6 := hg Stepdec; have g7 := hg Stepinc; have g8 := hg Grad; have g9 := hg Negstep.
rewrite /in_range; move: g5; rewrite /= => ->.
move: g1 g2 g3 g4 g6 g7 g8 g9 => /=.
by case: k hd {e hn hg} => [v|v|v|v|v|l|v|v|v|v|v] /= hd [->] [->] [->] [->] [->] [->] [->] [->].
Qed.
End S.

Section Met.
Variable F : realFieldType.
Variable sq : F -> F.
Notation E := (ExactE sq).
Lemma xlit_lt (p q p' q' : positive) : (p * q' <? p' * q)%positive -> xlit F (Zpos p) q < xlit F (Zpos p') q'.
Proof.
move=> /Pos.ltb_lt /Pos2Nat.inj_lt; rewrite !Pos2Nat.inj_mul => /ssrnat.leP h.
rewrite /xlit /Zr !AdmmWitness.posrE.
have hp : forall r : positive, 0 < ((Pos.to_nat r)%:R : F).
  by move=> r; rewrite -AdmmWitness.posrE; exact: posr_gt0.
by rewrite ltr_pdivr_mulr ?hp // mulrAC ltr_pdivl_mulr ?hp // -!natrM ltr_nat.
Qed.
Lemma one_lit : 1 = xlit F 1 1.
Proof. by rewrite /xlit /= divr1. Qed.
(** the default parameters of the constructors are in range *)
Theorem C20_defaults_in_range (ncb : nat) (filter : bool) : in_range (default_fcfg E ncb filter).
Proof.
have lt1 p q : (q <? p)%positive -> 1 < xlit F (Zpos p) q.
  by move=> h; rewrite one_lit; apply: xlit_lt; rewrite Pos.mul_1_r Pos.mul_1_l.
have le1 p q : (p <=? q)%positive -> xlit F (Zpos p) q <= 1.
  by move=> h; rewrite one_lit; apply: xlit_le; rewrite Pos.mul_1_r Pos.mul_1_l.
have gt0 p q : 0 < xlit F (Zpos p) q by exact: xlit_gt0.
split; [exact: lt1|exact: lt1|exact/ltW/gt0|].
split; [exact/ltW/gt0|by split; [exact: gt0|exact: le1]|by split; [exact: gt0|exact: le1]|].
split; [exact/ltW/gt0|exact/ltW/gt0|].
eexists _, _; split; first reflexivity.
by do 9 (split; [split; [exact: gt0|exact: xlit_lt]|]).
Qed.
(** a sequence with an in-range call between two out-of-range ones *)
Example C20_sequence_met : exists c',
  client [:: @CallRegMin E (- 1 : F); @CallRegMax E (2%:R : F); @CallStepdec E (2%:R : F)] (default_fcfg E 0 false) c' /\
  get RegMin c' = [:: xlit F 1 1000000000] /\ get RegMax c' = [:: 2%:R] /\ get Stepdec c' = [:: xlit F 1 2].
Proof.
eexists; split; [|split; [|split]].
- apply: client_cons; [right|apply: client_cons; [left|apply: client_cons; [right|exact: client_nil]]];
    cbn [exec]; rewrite ?/set_reg_min ?/set_reg_max ?/set_th_stepdec /rgt /rge /=.
  + by rewrite oppr_lt0 ltr01.
  + by rewrite ltNge ler0n /=.
  + by rewrite ltr1n orbT.
- reflexivity.
- reflexivity.
- reflexivity.
Qed.
End Met.

(** ** What the checks do not catch: NaN and the first step length (binary64) *)
Theorem C20_nan_accepted (c : fcfg FloatE) (k : R FloatE -> call FloatE) :
  List.In k [:: CallIncfactor (E := FloatE); CallDecfactor (E := FloatE); CallRegfactor (E := FloatE); CallRegMin (E := FloatE); CallRegMax (E := FloatE);
     CallStepdec (E := FloatE); CallStepinc (E := FloatE); CallGrad (E := FloatE); CallNegstep (E := FloatE)] ->
  exists c', exec (k fnan) c = SetDone c'.
Proof. by move=> /= [<-|[<-|[<-|[<-|[<-|[<-|[<-|[<-|[<-|//]]]]]]]]]; eexists; reflexivity. Qed.
Theorem C20_first_step_length_unchecked (E : Eig) (a : R E) (c : fcfg E) :
  exec (CallAlphas [:: a]) c = SetDone (base (put_alphas [:: a]) c).
Proof. by []. Qed.

Print Assumptions C20_setter_call.
Print Assumptions C20_any_sequence.
Print Assumptions C20_range_invariant.
Print Assumptions C20_nan_accepted.
