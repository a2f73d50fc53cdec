(** * IEEE-754 binary64 interpretation of the numerical interface.

    Executable (plain Gallina over [SpecFloat.spec_float], no primitive floats,
    so no axioms).  Round-to-nearest-even binary64, precision 53, emax 1024.
    Vectors are sized lists; matrices are row lists.

    Not modelled: the association order Eigen uses inside one reduction (we sum
    left to right) and the blocking of its Cholesky.  All theorems that rely on
    this file use vectors of dimension <= 1, where no order choice exists, or do
    not depend on it (they say so). *)
From Coq Require Import ZArith List Bool SpecFloat.
From Verif Require Import Eigen.

Definition f64 := spec_float.
Definition fadd : f64 -> f64 -> f64 := SFadd 53 1024.
Definition fsub : f64 -> f64 -> f64 := SFsub 53 1024.
Definition fmul : f64 -> f64 -> f64 := SFmul 53 1024.
Definition fdiv : f64 -> f64 -> f64 := SFdiv 53 1024.
Definition fsqrt : f64 -> f64 := SFsqrt 53 1024.
Definition fofZ (z : Z) : f64 := binary_normalize 53 1024 z 0 false.
Definition flit (n : Z) (d : positive) : f64 := fdiv (fofZ n) (fofZ (Zpos d)).
Definition f0 : f64 := S754_zero false.
Definition f1 : f64 := fofZ 1.
Definition fnan : f64 := S754_nan.
Definition finf : f64 := S754_infinity false.
Definition fninf : f64 := S754_infinity true.
Definition fisnan (x : f64) : bool := match x with S754_nan => true | _ => false end.
Definition fisinf (x : f64) : bool := match x with S754_infinity _ => true | _ => false end.

(** sized lists *)
Fixpoint lvec (A : Type) (n : nat) : Type :=
  match n with O => unit | S n' => (A * lvec A n')%type end.
Fixpoint lconst {A} {n} (a : A) : lvec A n :=
  match n return lvec A n with O => tt | S n' => (a, @lconst A n' a) end.
Fixpoint lmap {A B} {n} (f : A -> B) : lvec A n -> lvec B n :=
  match n return lvec A n -> lvec B n with
  | O => fun _ => tt
  | S n' => fun v => (f (fst v), lmap f (snd v))
  end.
Fixpoint lzip {A B C} {n} (f : A -> B -> C) : lvec A n -> lvec B n -> lvec C n :=
  match n return lvec A n -> lvec B n -> lvec C n with
  | O => fun _ _ => tt
  | S n' => fun v w => (f (fst v) (fst w), lzip f (snd v) (snd w))
  end.
Fixpoint lfoldl {A B} {n} (f : B -> A -> B) (b : B) : lvec A n -> B :=
  match n return lvec A n -> B with
  | O => fun _ => b
  | S n' => fun v => lfoldl f (f b (fst v)) (snd v)
  end.

Definition fvec := lvec f64.
Definition fmat (m n : nat) := lvec (lvec f64 n) m.

(** reductions start from the first coefficient, as Eigen's do; empty = 0 *)
Definition freduce (f : f64 -> f64 -> f64) {n} : fvec n -> f64 :=
  match n return fvec n -> f64 with
  | O => fun _ => f0
  | S n' => fun v => lfoldl f (fst v) (snd v)
  end.
Definition fsum {n} (v : fvec n) : f64 := freduce fadd v.
Definition fmaxc {n} (v : fvec n) : f64 := freduce (fun a b => if SFltb a b then b else a) v.
Definition fdot {n} (v w : fvec n) : f64 := fsum (lzip fmul v w).
Definition fl1 {n} (v : fvec n) : f64 := fsum (lmap SFabs v).
Definition flinf {n} (v : fvec n) : f64 := fmaxc (lmap SFabs v).

Fixpoint ltr {m n} : fmat m n -> fmat n m :=
  match m return fmat m n -> fmat n m with
  | O => fun _ => lconst tt
  | S m' => fun a => lzip (fun x r => (x, r)) (fst a) (ltr (snd a))
  end.
Definition lmulv {m n} (a : fmat m n) (v : fvec n) : fvec m := lmap (fun r => fdot r v) a.
Definition lmul {m n p} (a : fmat m n) (b : fmat n p) : fmat m p :=
  lmap (fun r => lmap (fun c => fdot r c) (ltr b)) a.
Definition lmadd {m n} (a b : fmat m n) : fmat m n := lzip (lzip fadd) a b.
Definition lmsub {m n} (a b : fmat m n) : fmat m n := lzip (lzip fsub) a b.
Definition lmscale {m n} (c : f64) (a : fmat m n) : fmat m n := lmap (lmap (fmul c)) a.
Fixpoint ladddiag {n} : fmat n n -> f64 -> fmat n n :=
  match n return fmat n n -> f64 -> fmat n n with
  | O => fun _ _ => tt
  | S n' => fun a c =>
      ((fadd (fst (fst a)) c, snd (fst a)),
       lzip (fun (x : lvec f64 (S n')) (r : lvec f64 n') => (fst x, r)) (snd a)
            (@ladddiag n' (lmap (fun x : lvec f64 (S n') => snd x) (snd a)) c))
  end.
Definition ldiagmul {m n} (v : fvec m) (a : fmat m n) : fmat m n := lzip (fun x r => lmap (fmul x) r) v a.
Fixpoint lupper {n} : fmat n n -> fmat n n :=
  match n return fmat n n -> fmat n n with
  | O => fun _ => tt
  | S n' => fun a =>
      (fst a,
       lzip (fun x (r : lvec f64 n') => (x, r)) (snd (fst a))
            (@lupper n' (lmap (fun x : lvec f64 (S n') => snd x) (snd a))))
  end.
Definition lmlinf {m n} (a : fmat m n) : f64 := fmaxc (lmap flinf a).

(** Cholesky: Eigen's llt_inplace rejects a pivot x iff x <= 0 (a NaN pivot is
    not rejected); only the lower triangle is read. *)
Definition lschur {n} (a : fmat (S n) (S n)) : fvec n * fmat n n :=
  let l := fsqrt (fst (fst a)) in
  let col := lmap (fun r : lvec f64 (S n) => fdiv (fst r) l) (snd a) in
  (col, lzip (fun (r : lvec f64 (S n)) c => lzip (fun x c' => fsub x (fmul c c')) (snd r) col)
             (snd a) col).
Fixpoint fllt_ok {n} : fmat n n -> bool :=
  match n return fmat n n -> bool with
  | O => fun _ => true
  | S n' => fun a => if SFleb (fst (fst a)) f0 then false else @fllt_ok n' (snd (lschur a))
  end.
Fixpoint fllt_solvev {n} : fmat n n -> fvec n -> fvec n :=
  match n return fmat n n -> fvec n -> fvec n with
  | O => fun _ _ => tt
  | S n' => fun a b =>
      let l := fsqrt (fst (fst a)) in
      let sc := lschur a in
      let y0 := fdiv (fst b) l in
      let b' := lzip (fun x c => fsub x (fmul c y0)) (snd b) (fst sc) in
      let x' := @fllt_solvev n' (snd sc) b' in
      (fdiv (fsub y0 (fdot (fst sc) x')) l, x')
  end.
Definition fllt_solvem {n p} (a : fmat n n) (b : fmat n p) : fmat n p :=
  ltr (lmap (fllt_solvev a) (ltr b)).

Definition FloatE : Eig := {|
  R := f64; r0 := f0; r1 := f1; rlit := flit;
  radd := fadd; rsub := fsub; rmul := fmul; rdiv := fdiv; ropp := SFopp; rabs := SFabs;
  rlt := SFltb; rle := SFleb; req := SFeqb; risnan := fisnan; risinf := fisinf;
  ext := f64; eninf := fninf; efin := fun x => x; eto := fun x => x;
  eadd := fadd; emul := fmul; ediv := fdiv; esqrt := fsqrt; elt := SFltb; ele := SFleb;
  cvec := lvec; cconst := @lconst; cmap := @lmap; czip := @lzip;
  vzero := fun n => lconst f0;
  vadd := fun n => lzip fadd; vsub := fun n => lzip fsub; vopp := fun n => lmap SFopp;
  vscale := fun n c => lmap (fmul c); vdot := @fdot; vl1 := @fl1; vlinf := @flinf;
  mat := fmat; mzero := fun m n => lconst (lconst f0);
  madd := @lmadd; msub := @lmsub; mscale := @lmscale; mmul := @lmul; mmulv := @lmulv;
  mtr := @ltr; madddiag := @ladddiag; mdiagmul := @ldiagmul; mupper := @lupper; mlinf := @lmlinf;
  llt_ok := @fllt_ok; llt_solvev := @fllt_solvev; llt_solvem := @fllt_solvem
|}.

(** sanity checks (tests, not properties) *)
Example flit_test : flit 1 2 = S754_finite false 4503599627370496 (-53).
Proof. vm_compute. reflexivity. Qed.
Example chol_test :
  fllt_solvev (n := 2) ((fofZ 4, (fofZ 0, tt)), ((fofZ 2, (fofZ 5, tt)), tt)) (fofZ 8, (fofZ 8, tt))
  = (flit 3 2, (fofZ 1, tt)).
Proof. vm_compute. reflexivity. Qed.
