(** Conformance examples: the unit tests of the project (tests/*.cpp), run inside the model.
    These are tests, not theorems: they show that the model answers what the C++ test-suite
    expects of the program, so that the theorems are about the right functions.

    The libm functions are computed here by rational approximations with 140 fractional bits
    followed by one correct rounding; [ASSERT_DOUBLE_EQ] is 4 ulps, i.e. a relative error of at most
    2^-50 for our purposes. *)
From Coq Require Import String Ascii List ZArith Bool.
From Flocq Require Import IEEE754.BinarySingleNaN Core.
From Verif Require Import Base MathOp IEEE NodeModel ParseModel ToStringModel SimplifyModel SubsModel DiffModel
  MatModel LinearModel VarsTableModel SymMatModel NonlinearModel ExprSpec.
Import ListNotations.
Local Open Scope string_scope.
Local Open Scope list_scope.
Local Open Scope Z_scope.

(** ** A libm by fixed-point arithmetic *)
Definition P : Z := 140.
Definition one : Z := 2 ^ P.
Definition fmul (a b : Z) : Z := Z.shiftr (a * b) P.
Definition fdiv (a b : Z) : Z := (Z.shiftl a P) / b.
Definition to_fix (v : b64) : option Z :=
  match v with
  | B754_zero _ => Some 0
  | B754_finite s m e _ => let z := Z.shiftl (Zpos m) (e + P) in Some (if s then - z else z)
  | _ => None
  end.
(** z * 2^k with k a shift, rounded once *)
Definition of_fix (z k : Z) : b64 :=
  let num := if 0 <=? k then Z.shiftl (Z.abs z) k else Z.abs z in
  let den := if 0 <=? k then one else Z.shiftl one (- k) in
  ratio (z <? 0) num den.

(** sum of t_i, where t_(i+1) = next i t_i *)
Fixpoint series (n : nat) (i : Z) (t : Z) (next : Z -> Z -> Z) : Z :=
  match n with O => 0 | S n' => t + series n' (i + 1) (next i t) next end.
(** atan(x) for |x| <= 1/2, atanh(x) for |x| <= 1/2 : x^(2i+1)/(2i+1) *)
Fixpoint odd_series (n : nat) (k p xx : Z) : Z :=
  match n with O => 0 | S n' => p / k + odd_series n' (k + 2) (fmul p xx) xx end.
Definition atan_small (x : Z) : Z := odd_series 75 1 x (- fmul x x).
Definition atanh_small (x : Z) : Z := odd_series 75 1 x (fmul x x).
Definition fpi : Z := 4 * (4 * atan_small (one / 5) - atan_small (one / 239)).
Definition fln2 : Z := 2 * atanh_small (one / 3).
Definition fsqrt (x : Z) : Z := Z.sqrt (Z.shiftl x P).
Definition fatan (x : Z) : Z :=
  let a := Z.abs x in
  let red y := (* |y| <= 1 *) 2 * atan_small (fdiv y (one + fsqrt (one + fmul y y))) in
  let r := if one <? a then fpi / 2 - red (fdiv one a) else red a in
  if x <? 0 then - r else r.
Definition fsin (x : Z) : Z :=
  let r := x - fpi * 2 * ((x + fpi) / (fpi * 2)) in
  series 40 1 r (fun i t => - fmul (fmul t r) r / ((2 * i) * (2 * i + 1))).
Definition fexp (x : Z) : Z * Z :=
  let k := x / fln2 in
  (series 45 1 one (fun i t => fmul t (x - k * fln2) / i), k).
(** ln x for x > 0: x = 2^k * m, 1 <= m < 2 *)
Definition fln (x : Z) : Z :=
  let k := Z.log2 x - P in
  let m := Z.shiftr x k in
  2 * atanh_small (fdiv (m - one) (m + one)) + k * fln2.

Definition lift1 (f : Z -> b64) (v : b64) : b64 := match to_fix v with Some z => f z | None => B754_nan end.
Definition r_sin := lift1 (fun x => of_fix (fsin x) 0).
Definition r_cos := lift1 (fun x => of_fix (fsin (x + fpi / 2)) 0).
Definition r_tan := lift1 (fun x => of_fix (fdiv (fsin x) (fsin (x + fpi / 2))) 0).
Definition r_atan := lift1 (fun x => of_fix (fatan x) 0).
Definition f_asin (x : Z) : Z :=
  if Z.abs x =? one then Z.sgn x * (fpi / 2) else fatan (fdiv x (fsqrt (one - fmul x x))).
Definition r_asin := lift1 (fun x => if one <? Z.abs x then B754_nan else of_fix (f_asin x) 0).
Definition r_acos := lift1 (fun x => if one <? Z.abs x then B754_nan else of_fix (fpi / 2 - f_asin x) 0).
Definition r_log_by (base : Z) := lift1 (fun x =>
  if x <? 0 then B754_nan else if x =? 0 then B754_infinity true else of_fix (fdiv (fln x) base) 0).
Definition r_exp := lift1 (fun x => let '(m, k) := fexp x in of_fix m k).
Definition r_powZ (x : b64) (n : Z) : b64 :=
  match x with
  | B754_zero _ => if 0 <? n then b_ofZ 0 else B754_infinity false
  | B754_finite s m e _ =>
      let '(a, b) := frac_of m e in
      let neg := s && Z.odd n in
      if 0 <=? n then ratio neg (a ^ n) (b ^ n) else ratio neg (b ^ (- n)) (a ^ (- n))
  | _ => B754_nan
  end.
Definition r_pow (x y : b64) : b64 :=
  match b_toint y with
  | Some n => if Beqb (b_ofZ n) y then (if n =? 0 then b_ofZ 1 else r_powZ x n)
              else match to_fix x, to_fix y with
                   | Some fx, Some fy => if 0 <? fx then let '(m, k) := fexp (fmul fy (fln fx)) in of_fix m k else B754_nan
                   | _, _ => B754_nan
                   end
  | None => B754_nan
  end.
Definition ref_libm : libm :=
  {| m_pow := r_pow; m_sin := r_sin; m_cos := r_cos; m_tan := r_tan; m_asin := r_asin; m_acos := r_acos; m_atan := r_atan;
     m_log := r_log_by one; m_log2 := r_log_by fln2; m_log10 := r_log_by (fln (10 * one)); m_exp := r_exp |}.
Definition R64 := B64 ref_libm.

(** ** Tests as booleans *)
Definition d (m e : Z) : b64 := b_dec (m <? 0) (Z.abs m) e.
Definition i (z : Z) : b64 := b_ofZ z.
Definition nd := node R64.
Definition num (v : b64) : nd := mkNum (K:=R64) v.
Definition get {A} (dflt : A) (r : res A) : A := match r with Ok a => a | _ => dflt end.
Definition var (x : string) : nd := get Nil (mkVar (K:=R64) x).
Definition bin (op : math_op) (a b : nd) : nd := get Nil (BinaryOperator (K:=R64) op a b).
Definition un (op : math_op) (a : nd) : nd := get Nil (UnaryOperator (K:=R64) op a).
Definition fml (s : string) : nd := get Nil (Parse (K:=R64) s).
Definition cfg := default_config R64.
Definition cfg_nothrow : config R64 :=
  {| throwOnInvalidValue := false; epsilon := epsilon cfg; maxIterations := maxIterations cfg;
     nonlinearMethod := nonlinearMethod cfg; initialValue := initialValue cfg; allowIndeterminateEquation := false |}.
Definition cfg_lm : config R64 :=
  {| throwOnInvalidValue := true; epsilon := epsilon cfg; maxIterations := maxIterations cfg;
     nonlinearMethod := LM; initialValue := initialValue cfg; allowIndeterminateEquation := false |}.

Infix "[+]" := (bin MATH_ADD) (at level 50, left associativity).
Infix "[-]" := (bin MATH_SUB) (at level 50, left associativity).
Infix "[*]" := (bin MATH_MULTIPLY) (at level 40, left associativity).
Infix "[/]" := (bin MATH_DIVIDE) (at level 40, left associativity).
Infix "[^]" := (bin MATH_POWER) (at level 30, right associativity).
Notation "[-] a" := (un MATH_NEGATIVE a) (at level 35, right associativity).
Notation "[+] a" := (un MATH_POSITIVE a) (at level 35, right associativity).

Definition str (n : nd) : string := get "?" (ToString (K:=R64) n).
Definition prints (n : nd) (s : string) : bool := String.eqb (str n) s.
Definition near (a b : b64) : bool :=
  Bleb (Babs (Bminus mode_NE a b)) (Bmult mode_NE (Babs b) (Bdiv mode_NE (b_ofZ 1) (b_ofZ (2 ^ 50)))).
Definition vpa_is (n : nd) (v : b64) : bool := match Vpa (K:=R64) cfg n with Ok x => near x v | _ => false end.
Definition math_error {A} (r : res A) : bool := match r with Throw (MathError _ _) => true | _ => false end.
Definition any_throw {A} (r : res A) : bool := match r with Throw _ => true | _ => false end.
Definition is_ok {A} (r : res A) : bool := match r with Ok _ => true | _ => false end.
Definition same (a b : nd) : bool := match Equal (K:=R64) a b with Ok c => c | _ => false end.
Definition parse_error {A} (r : res A) : bool :=
  match r with Throw (SingleParseError _ _ _ _) | Throw (MultiParseError _) => true | _ => false end.
Fixpoint all (l : list bool) : bool := match l with [] => true | b :: l' => (b && all l')%bool end.
Definition is_true (r : res bool) : bool := match r with Ok b => b | _ => false end.

(** ** tests/to_string_test.cpp *)
Example to_string_base : all [
  String.eqb (b_tostr (i 0)) "0"; String.eqb (b_tostr (i 1)) "1"; String.eqb (b_tostr (d 1 (-1))) "0.1";
  String.eqb (b_tostr (d 12 (-2))) "0.12"; String.eqb (b_tostr (d 123456789123450 (-15))) "0.12345678912345";
  String.eqb (b_tostr (i 1234567890)) "1234567890";
  String.eqb (b_tostr (i 123456789012345)) "123456789012345"; String.eqb (b_tostr (i (-123456789012345))) "-123456789012345";
  String.eqb (b_tostr (i 1234567890123456)) "1234567890123456"; String.eqb (b_tostr (i (-1234567890123456))) "-1234567890123456";
  String.eqb (b_tostr (d 1 1)) "10"; String.eqb (b_tostr (d 1 15)) "1000000000000000"; String.eqb (b_tostr (d 1 16)) "1e+16";
  String.eqb (b_tostr (d 1 (-16))) "9.9999999999999998e-17";
  String.eqb (b_tostr (ratio false 1 (2 ^ 1022))) "2.2250738585072014e-308";
  String.eqb (b_tostr (ratio false ((2 ^ 53 - 1) * 2 ^ 971) 1)) "1.7976931348623157e+308";
  String.eqb (b_tostr (ratio false 1 (2 ^ 1074))) "4.9406564584124654e-324";
  String.eqb (b_tostr (ratio true ((2 ^ 53 - 1) * 2 ^ 971) 1)) "-1.7976931348623157e+308" ] = true.
Proof. vm_compute. reflexivity. Qed.

(** ** tests/node_test.cpp, power_test.cpp *)
Definition n10 := num (i 10).
Example node_num : all [
  prints n10 "10"; prints (num (i 1) [+] num (i 2)) "1+2"; prints (n10 [+] (num (i 1) [+] num (i 2))) "10+1+2";
  prints (n10 [+] num (i 3)) "10+3"; prints (num (i 3) [+] n10) "3+10" ] = true.
Proof. vm_compute. reflexivity. Qed.
Example node_var : all [
  any_throw (mkVar (K:=R64) "0a"); is_ok (mkVar (K:=R64) "a"); is_ok (mkVar (K:=R64) "a0"); is_ok (mkVar (K:=R64) "_");
  is_ok (mkVar (K:=R64) "_a"); is_ok (mkVar (K:=R64) "_1"); prints (var "a" [-] num (i 1)) "a-1";
  any_throw (mkOp (K:=R64) MATH_NULL); is_ok (mkOp (K:=R64) MATH_ADD) ] = true.
Proof. vm_compute. reflexivity. Qed.
Definition abc := var "a" [+] var "b" [*] var "c".
Example node_ops : all [
  prints abc "a+b*c"; prints (n10 [+] num (i 1)) "10+1"; prints (n10 [+] num (i 1) [+] num (i 20)) "10+1+20";
  prints (n10 [-] num (i (-10))) "10-(-10)"; prints (n10 [-] num (i 1) [-] num (i 20)) "10-1-20";
  prints (n10 [*] num (i 1) [*] num (i 20)) "10*1*20"; prints (n10 [/] num (i 1) [/] num (i 20)) "10/1/20";
  prints ((var "a" [+] var "b") [*] var "c") "(a+b)*c"; prints (var "a" [+] var "b" [/] var "c") "a+b/c" ] = true.
Proof. vm_compute. reflexivity. Qed.
Example node_negative : all [
  prints ([-] num (i 10)) "-10"; prints ([-] var "x") "-x"; prints ([+] var "y") "+y";
  prints ([-] (var "x" [+] num (i 2))) "-(x+2)"; prints (var "y" [+] [-] (var "x" [+] num (i 2))) "y+-(x+2)";
  prints (var "y" [+] [+] (var "x" [+] num (i 2))) "y++(x+2)";
  vpa_is (un MATH_ARCTAN (un MATH_COS ([-] ([+] ([-] num (d 879117553746407054 (-16)) [/] num (d 905933224572584663 (-16)))))))
    (d 51426347804323491 (-17)) ] = true.
Proof. vm_compute. reflexivity. Qed.
Example node_values : all [
  vpa_is (num (i 1) [+] num (i 2) [*] num (i 3)) (i 7); vpa_is ((num (i 1) [+] num (i 2)) [*] num (i 3)) (i 9);
  vpa_is (num (i 1) [+] num (i 2) [/] num (i 4)) (d 15 (-1)); vpa_is ((num (i 1) [+] num (i 2)) [/] num (i 4)) (d 75 (-2));
  math_error (Vpa (K:=R64) cfg (num (i 1) [/] num (i 0)));
  same abc abc; same abc (var "a" [+] var "b" [*] var "c") ] = true.
Proof. vm_compute. reflexivity. Qed.
Example power_base : all [
  prints (num (i 2) [^] num (i 3)) "2^3"; vpa_is (num (i 2) [^] num (i 3)) (i 8);
  prints ((num (i 2) [^] num (i 3)) [^] num (i 2)) "(2^3)^2"; vpa_is ((num (i 2) [^] num (i 3)) [^] num (i 2)) (i 64);
  prints (num (i 2) [^] (num (i 3) [^] num (i 2))) "2^(3^2)"; vpa_is (num (i 2) [^] (num (i 3) [^] num (i 2))) (i 512);
  (* 1.1^0.25 = 1.0241136890844451... *)
  vpa_is (num (d 11 (-1)) [^] num (d 25 (-2))) (d 10241136890844451 (-16)) ] = true.
Proof. vm_compute. reflexivity. Qed.

(** ** tests/parse_test.cpp *)
Definition oper (op : math_op) : nd := get Nil (mkOp (K:=R64) op).
Fixpoint same_list (ts : list (token R64)) (l : list nd) : bool :=
  match ts, l with
  | [], [] => true
  | t :: ts', n :: l' => (same (t_node t) n && same_list ts' l')%bool
  | _, _ => false
  end.
Definition tokens (s : string) : list (token R64) := get [] (ParseToTokens (K:=R64) s).
Definition postorder (s : string) : res (list (token R64)) :=
  bind (ParseToTokens (K:=R64) s) (InOrderToPostOrder (K:=R64) s).
Definition n1 := num (i 1). Definition n2 := num (i 2). Definition n3 := num (i 3). Definition n4 := num (i 4).
Definition err_pos {A} (r : res A) : nat := match r with Throw (SingleParseError _ p _ _) => p | _ => 999 end.
Example parse_tokens : all [
  same_list (tokens "1+2") [n1; oper MATH_ADD; n2]; same_list (tokens ".12345") [num (d 12345 (-5))];
  same_list (tokens "7891.123") [num (d 7891123 (-3))]; same_list (tokens "1e0") [n1];
  same_list (tokens "1/+2") [n1; oper MATH_DIVIDE; oper MATH_POSITIVE; n2];
  same_list (tokens "1/-2") [n1; oper MATH_DIVIDE; oper MATH_NEGATIVE; n2];
  same_list (tokens "-1--2") [oper MATH_NEGATIVE; n1; oper MATH_SUB; oper MATH_NEGATIVE; n2];
  Nat.eqb (err_pos (ParseToTokens (K:=R64) "1#+2")) 0;
  Nat.eqb (err_pos (ParseToTokens (K:=R64) "a*cos(x1) + b*cos(x1-x2) + c*cos(?x1-x2-x3)")) 33 ] = true.
Proof. vm_compute. reflexivity. Qed.
Example parse_postorder : all [
  same_list (get [] (postorder "1*(2-3)")) [n1; n2; n3; oper MATH_SUB; oper MATH_MULTIPLY];
  same_list (get [] (postorder "1*2-3")) [n1; n2; oper MATH_MULTIPLY; n3; oper MATH_SUB];
  same_list (get [] (postorder "1-2-3")) [n1; n2; oper MATH_SUB; n3; oper MATH_SUB];
  same_list (get [] (postorder "2^3^4")) [n2; n3; n4; oper MATH_POWER; oper MATH_POWER];
  is_ok (ParseToTokens (K:=R64) "1*2-3)"); parse_error (postorder "1*2-3)");
  is_ok (ParseToTokens (K:=R64) "(1*2-3"); parse_error (postorder "(1*2-3") ] = true.
Proof. vm_compute. reflexivity. Qed.
Definition cosn := un MATH_COS. Definition sinn := un MATH_SIN.
Example parse_tree : all [
  prints (fml "1*(2-3)") "1*(2-3)"; prints (fml "1*2-3") "1*2-3"; prints (fml "x^2-y^2-7") "x^2-y^2-7";
  same (fml "a*cos(x1) + b*cos(x1-x2) + c*cos(x1-x2-x3)")
       (var "a" [*] cosn (var "x1") [+] var "b" [*] cosn (var "x1" [-] var "x2") [+]
        var "c" [*] cosn (var "x1" [-] var "x2" [-] var "x3"));
  parse_error (Parse (K:=R64) "x(1)*cos(2)"); parse_error (Parse (K:=R64) "x(1)*cos(x(2)) + x(2)*sin(x(1)) - 0.5") ] = true.
Proof. vm_compute. reflexivity. Qed.

(** ** tests/simplify_test.cpp *)
Definition simp (n : nd) : nd := get Nil (Simplify (K:=R64) cfg n).
Definition x := var "x". Definition y := var "y". Definition n0 := num (i 0).
Example simplify_base : all [
  prints (simp (sinn n0)) "0"; prints (simp (n1 [+] n2 [*] n3)) "7"; same (simp (n1 [+] n2 [*] n3)) (num (i 7));
  prints (simp (x [+] n0)) "x"; prints (simp (n0 [+] x)) "x"; prints (simp (x [*] n1 [*] y [*] var "z")) "x*y*z";
  prints (simp (cosn x [*] n1)) "cos(x)"; prints (simp (n1 [*] x [*] n0 [+] n0 [*] y)) "0" ] = true.
Proof. vm_compute. reflexivity. Qed.

(** ** tests/subs_test.cpp *)
Definition subs1 (n : nd) (v : string) (m : nd) : nd := get Nil (Subs1 (K:=R64) n v m).
Definition subsv (n : nd) (vs : list string) (ms : list nd) : nd := get Nil (SubsVec (K:=R64) n vs ms).
Definition radians (deg : Z) : b64 := Bmult mode_NE (Bdiv mode_NE (i deg) (i 180)) (d 31415926535897932 (-16)).
Definition xy := x [*] y [+] sinn x.
Example subs_base : all [
  prints (subs1 x "x" y) "y"; prints (subs1 x "x" (num (i 100))) "100"; vpa_is (subs1 x "x" (num (i 99))) (i 99);
  prints (subs1 xy "x" (x [+] n1)) "(x+1)*y+sin(x+1)";
  vpa_is (subs1 (subs1 (subs1 (var "r" [*] sinn (x [+] y)) "x" (num (radians 360))) "y" (num (radians 30))) "r" (num (i 100))) (i 50);
  prints (subsv xy ["x"; "y"] [y; x]) "y*x+sin(y)";
  prints (subsv (subsv xy ["x"; "y"] [y; x]) ["x"] [cosn y]) "y*cos(y)+sin(y)" ] = true.
Proof. vm_compute. reflexivity. Qed.

(** ** tests/diff_test.cpp *)
Definition diff (n : nd) (v : string) : nd := get Nil (Diff (K:=R64) cfg n v 1).
Definition a := var "a". Definition b := var "b".
Definition sqrtn := un MATH_SQRT. Definition logn := un MATH_LOG.
Example diff_base : all [
  same (diff a "a") n1; same (diff a "b") n0; same (diff n1 "a") n0; same (diff (a [+] b) "a") n1;
  same (diff ([-] a) "a") (num (i (-1))); same (diff ([-] a) "b") n0; same (diff ([-] n1) "a") n0;
  same (diff ([-] a [+] [-] b) "a") (num (i (-1))); same (diff ([-] a [+] [-] b) "b") (num (i (-1)));
  same (diff ([-] a [+] [+] b) "a") (num (i (-1))); same (diff ([-] a [+] [+] b) "b") n1 ] = true.
Proof. vm_compute. reflexivity. Qed.
Example diff_functions : all [
  same (diff (sinn x) "x") (cosn x); same (diff (cosn x) "x") ([-] sinn x);
  same (diff (un MATH_TAN x) "x") (n1 [/] (cosn x [^] n2));
  same (diff (un MATH_ARCSIN x) "x") (n1 [/] sqrtn (n1 [-] (x [^] n2)));
  same (diff (un MATH_ARCCOS x) "x") (num (i (-1)) [/] sqrtn (n1 [-] (x [^] n2)));
  same (diff (un MATH_ARCTAN x) "x") (n1 [/] (n1 [+] (x [^] n2)));
  same (diff (sqrtn x) "x") (n1 [/] (n2 [*] sqrtn x));
  same (diff (un MATH_EXP x) "x") (un MATH_EXP x);
  same (diff (un MATH_EXP (sinn x)) "x") (un MATH_EXP (sinn x) [*] cosn x);
  same (diff (logn x) "x") (n1 [/] x); same (diff (logn (sinn x)) "x") (n1 [/] sinn x [*] cosn x);
  same (diff (un MATH_LOG2 x) "x") (n1 [/] (x [*] num (r_log_by one (i 2))));
  same (diff (un MATH_LOG10 x) "x") (n1 [/] (x [*] num (r_log_by one (i 10)))) ] = true.
Proof. vm_compute. reflexivity. Qed.
Example diff_arith : all [
  same (diff (num (i 5) [*] a) "a") (num (i 5)); same (diff (b [*] num (i 5)) "b") (num (i 5)); same (diff (a [*] b) "a") b;
  same (diff (b [/] num (i 5)) "b") (num (d 2 (-1)));
  same (diff (num (i 5) [/] a) "a") (num (i (-5)) [/] (a [^] n2));
  prints (diff ((x [^] n2) [/] sinn x) "x") "(2*x*sin(x)-x^2*cos(x))/sin(x)^2";
  prints (diff (x [*] logn x) "x") "log(x)+x*1/x";
  same (diff (x [^] num (i 5)) "x") (num (i 5) [*] (x [^] n4));
  same (diff (n3 [^] x) "x") ((n3 [^] x) [*] num (r_log_by one (i 3)));
  prints (diff (x [^] x) "x") "x^x*(log(x)+x*1/x)";
  prints (diff (sinn x [^] cosn x) "x") "sin(x)^cos(x)*(-(sin(x))*log(sin(x))+cos(x)*1/sin(x)*cos(x))";
  prints (diff (sinn (a [*] b [+] var "c") [*] n1 [*] a) "a") "cos(a*b+c)*b*a+sin(a*b+c)";
  prints (diff (sinn (cosn x [+] sinn x)) "x") "cos(cos(x)+sin(x))*(-(sin(x))+cos(x))" ] = true.
Proof. vm_compute. reflexivity. Qed.

(** ** tests/functions_test.cpp *)
Definition inf := B754_infinity (prec:=53) (emax:=1024) false.
Definition dblMax := ratio false ((2 ^ 53 - 1) * 2 ^ 971) 1.
Definition invalid : list nd := [
  num inf [+] n1; num (B754_infinity true) [+] n1; num B754_nan [+] n1; n1 [/] n0; num dblMax [^] n2;
  un MATH_ARCSIN (num (d 11 (-1))); un MATH_ARCSIN (num (d (-11) (-1))); un MATH_ARCCOS (num (d 11 (-1)));
  un MATH_ARCCOS (num (d (-11) (-1))); sqrtn (num (d (-1) (-1))); logn n0; un MATH_LOG2 n0; un MATH_LOG10 n0 ].
Example functions_invalid :
  all (map (fun n => math_error (Vpa (K:=R64) cfg n)) invalid ++ map (fun n => is_ok (Vpa (K:=R64) cfg_nothrow n)) invalid) = true.
Proof. vm_compute. reflexivity. Qed.
Example functions_to_string :
  prints (var "r" [*] sinn (var "omega" [/] n2 [+] var "phi") [+] var "c") "r*sin(omega/2+phi)+c" = true.
Proof. vm_compute. reflexivity. Qed.

(** ** tests/mat_test.cpp, linear_test.cpp *)
Definition dmat := mat (IEEE.b64).
Definition mat_of (l : list (list b64)) : dmat := get (MkMat 0 0 []) (Mat_init (K:=R64) l).
Definition zmat (l : list (list Z)) : dmat := mat_of (map (map i) l).
Definition vec_of (l : list b64) : dmat := get (MkMat 0 0 []) (Vec_of (K:=R64) l).
Definition mat_is (r : res dmat) (m : dmat) : bool := match r with Ok q => is_true (Mat_eq (K:=R64) cfg q m) | _ => false end.
Example mat_tests : all [
  mat_is (Mat_mul (K:=R64) (zmat [[1; 2]; [3; 4]]) (zmat [[6; 7]; [8; 9]])) (zmat [[22; 25]; [50; 57]]);
  mat_is (Inverse (K:=R64) cfg (zmat [[1; 2]; [3; 4]])) (mat_of [[i (-2); i 1]; [d 15 (-1); d (-5) (-1)]]);
  mat_is (Inverse (K:=R64) cfg (zmat [[1; 2; 3]; [4; 5; 6]; [-2; 7; 8]]))
    (mat_of [[d (-83333333333333) (-15); d 208333333333333 (-15); d (-125) (-3)];
             [d (-1833333333333333) (-15); d 583333333333333 (-15); d 25 (-2)];
             [d 1583333333333333 (-15); d (-458333333333333) (-15); d (-125) (-3)]]);
  math_error (Inverse (K:=R64) cfg (zmat [[1; 2; 3]; [4; 5; 6]; [7; 8; 9]]));
  is_true (PositiveDetermine (K:=R64) (zmat [[1; 1; 1; 1]; [1; 2; 3; 4]; [1; 3; 6; 10]; [1; 4; 10; 20]]));
  negb (is_true (PositiveDetermine (K:=R64) (zmat [[1; 2; 3]; [4; 5; 6]; [7; 8; 9]])));
  mat_is (SolveLinear (K:=R64) cfg (zmat [[2; 1; -5; 1]; [1; -5; 0; 7]; [0; 2; 1; -1]; [1; 6; -1; -4]]) (vec_of [i 13; i (-9); i 6; i 0]))
    (vec_of [d (-665555555555555429) (-16); d 256666666666666643 (-16); d (-18777777777777775) (-15); d 2655555555555555 (-14)]) ] = true.
Proof. vm_compute. reflexivity. Qed.

(** ** tests/symmat_test.cpp *)
Definition smat := symmat R64.
Definition sdef : smat := MkSym (K:=R64) 0 0 [].
Definition sym_of (l : list (list nd)) : smat := get sdef (SymMat_init (K:=R64) l).
Definition svec (l : list nd) : smat := get sdef (SymVec_of (K:=R64) l).
Definition c_ := var "c". Definition d_ := var "d".
Definition X := sym_of [[a; b]; [c_; d_]].
Example symmat_multiply :
  is_true (bind (SymMat_mul (K:=R64) X X) (fun r => SymMat_eq (K:=R64) r
    (sym_of [[a [*] a [+] b [*] c_; a [*] b [+] b [*] d_]; [c_ [*] a [+] d_ [*] c_; c_ [*] b [+] d_ [*] d_]]))) = true.
Proof. vm_compute. reflexivity. Qed.

(** ** tests/solve_base_test.cpp, solve_test.cpp *)
Definition tdef : vars_table R64 := MkTable (K:=R64) [] (MkMat 0 0 []) [].
Definition table (l : list (string * b64)) : vars_table R64 := get tdef (VarsTable_init (K:=R64) l).
Definition solves (cf : config R64) (r : res (vars_table R64)) (l : list (string * b64)) : bool :=
  is_true (bind r (fun t => VarsTable_eq (K:=R64) cf t (table l))).
Definition arm : smat :=
  let f := svec [fml "a*cos(x1) + b*cos(x1-x2) + c*cos(x1-x2-x3)"; fml "a*sin(x1) + b*sin(x1-x2) + c*sin(x1-x2-x3)"; fml "x1-x2-x3"] in
  let t := svec [num (d 5 (-1)); num (d 4 (-1)); n0] in
  get sdef (bind (SymMat_sub (K:=R64) f t) (fun e => SymMat_SubsTable (K:=R64) e (table [("a", d 425 (-3)); ("b", d 39243 (-5)); ("c", d 109 (-3))]))).
Definition arm_ans := [("x1", d 15722855035930956 (-16)); ("x2", d 16360330989069252 (-16)); ("x3", d (-637475947386077) (-16))].
Definition arm_init := table [("x1", i 1); ("x2", i 1); ("x3", i 1)].
Example solve_arm_newton : solves cfg (SolveByNewtonRaphson (K:=R64) cfg arm arm_init) arm_ans = true.
Proof. vm_compute. reflexivity. Qed.
Example solve_arm_lm : solves cfg (SolveByLM (K:=R64) cfg 101 1076 arm arm_init) arm_ans = true.
Proof. vm_compute. reflexivity. Qed.
Definition cfg_case1 : config R64 :=
  {| throwOnInvalidValue := true; epsilon := (d 1 (-6) : R64); maxIterations := 100;
     nonlinearMethod := NEWTON_RAPHSON; initialValue := (i 0 : R64); allowIndeterminateEquation := false |}.
Definition case1 := svec [fml "exp(-exp(-(x1 + x2))) - x2 * (1 + x1 ^ 2)"; fml "x1 * cos(x2) + x2 * sin(x1) - 0.5"].
Example solve_case1 : solves cfg_case1 (Solve1 (K:=R64) cfg_case1 0 0 case1) [("x1", d 353246561920553 (-15)); ("x2", d 606082026502285 (-15))] = true.
Proof. vm_compute. reflexivity. Qed.
Definition case2 : smat :=
  get sdef (bind (SymMat_mul (K:=R64) X X) (fun q => bind (SymMat_mul (K:=R64) q X) (fun q3 =>
    bind (SymMat_of_Mat (K:=R64) (zmat [[1; 2]; [3; 4]])) (fun B => bind (SymMat_sub (K:=R64) q3 B) (ToSymVecOneByOne (K:=R64)))))).
Example solve_case2 : solves cfg (Solve1 (K:=R64) cfg_lm 101 1076 case2)
  [("a", d (-129148906397607) (-15)); ("b", d 8602157139938529 (-16)); ("c", d 12903235709907794 (-16)); ("d", d 11611746645931726 (-16))] = true.
Proof. vm_compute. reflexivity. Qed.
Definition case4 := svec [fml "x^2+y^2-25"; fml "x^2-y^2-7"].
(** The test only prints the answer.  Started at (4.1, 3.1), next to the root (4, 3), the program
    answers the root (-4, -3): the iterate [q] starts at zero (nonlinear.cpp:94), so only the first
    evaluation is made at the given point. *)
Example solve_case4 : solves cfg (Solve (K:=R64) cfg 0 0 case4 (table [("x", d 41 (-1)); ("y", d 31 (-1))])) [("x", i (-4)); ("y", i (-3))] = true.
Proof. vm_compute. reflexivity. Qed.
Definition indet := svec [fml "cos(x1) + cos(x1-x2) + cos(x1-x2-x3) - 1"; fml "sin(x1) + sin(x1-x2) + sin(x1-x2-x3) + 2"].
Definition cfg_indet : config R64 :=
  {| throwOnInvalidValue := true; epsilon := epsilon cfg; maxIterations := 100;
     nonlinearMethod := NEWTON_RAPHSON; initialValue := (i 1 : R64); allowIndeterminateEquation := true |}.
Example solve_indeterminate : all [ math_error (Solve1 (K:=R64) cfg 0 0 indet); is_ok (Solve1 (K:=R64) cfg_indet 0 0 indet) ] = true.
Proof. vm_compute. reflexivity. Qed.
