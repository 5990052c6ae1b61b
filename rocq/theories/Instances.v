(** Instances of [Num]: the standard library's reals (used for statements about
    values and derivatives) and exact rationals (used for computed examples and witnesses). *)
From Coq Require Import Reals ZArith QArith Qcanon List Lra Lia.
From Verif Require Import Base.
Import ListNotations.

(** ** Reals *)
(** truncation toward zero, the meaning of [static_cast<int>(double)] (range errors not modelled) *)
Definition Rtrunc (x : R) : Z :=
  if Rle_dec 0 x then Int_part x else (- Int_part (- x))%Z.

Definition RNum : Num := {|
  carrier := R;
  nlit := fun n d => match d with xH => IZR n | _ => (IZR n / IZR (Zpos d))%R end;
  nadd := Rplus; nsub := Rminus; nmul := Rmult; ndiv := Rdiv; nopp := Ropp;
  nleb := fun x y => if Rle_dec x y then true else false;
  nltb := fun x y => if Rlt_dec x y then true else false;
  ntrunc := Rtrunc;
  nexp := exp; nsqrt := sqrt;
  npow := Rpower;
  npowi := powerRZ;
  npi := PI
|}.

Lemma RNum_lit (n : Z) (d : positive) : @nlit RNum n d = (IZR n / IZR (Zpos d))%R.
Proof. destruct d; try reflexivity. simpl. field. Qed.

Lemma RNum_lit1 (n : Z) : @nlit RNum n 1 = IZR n.
Proof. reflexivity. Qed.

Lemma RNum_zero : @nzero RNum = 0%R.
Proof. apply RNum_lit1. Qed.

Lemma RNum_one : @none RNum = 1%R.
Proof. apply RNum_lit1. Qed.

Lemma RNum_ofZ z : @nofZ RNum z = IZR z.
Proof. apply RNum_lit1. Qed.

Lemma RNum_ofnat n : @nofnat RNum n = INR n.
Proof. unfold nofnat. rewrite RNum_ofZ. symmetry. apply INR_IZR_INZ. Qed.

(** ** Rationals in normal form.  [exp], [sqrt], [pow], [pi] are placeholders: the examples
    that use this instance do not exercise them, or only use that theorems hold for every [Num]. *)
Definition Qtrunc (q : Q) : Z := Z.quot (Qnum q) (Zpos (Qden q)).

Definition QNum : Num := {|
  carrier := Q;
  nlit := fun n d => Qred (n # d);
  nadd := fun x y => Qred (x + y);
  nsub := fun x y => Qred (x - y);
  nmul := fun x y => Qred (x * y);
  ndiv := fun x y => Qred (x / y);
  nopp := fun x => Qred (- x);
  nleb := Qle_bool;
  nltb := fun x y => negb (Qle_bool y x);
  ntrunc := Qtrunc;
  nexp := fun x => Qred (1 + x);
  nsqrt := fun x => x;
  npow := fun x _ => x;
  npowi := fun x z => Qred (Qpower x z);
  npi := 3 # 1
|}.
Canonical Structure RNum.
Canonical Structure QNum.
