(** Relations between three linear Kalman filters run on the same call sequence, and their
    instances: affine combinations of data, scaling of covariances, change of coordinates,
    forgetting. *)
From Coq Require Import ZArith List.
From mathcomp Require Import all_ssreflect all_algebra.
From mathcomp Require Import ring.
From Verif Require Import Base Defs ZDO ZDORel MxLib Cholesky Kalman KFilter KFProofs.
Set Implicit Arguments.
Unset Strict Implicit.
Unset Printing Implicit Defensive.
Import Order.TTheory GRing.Theory Num.Theory.
Open Scope ring_scope.

Lemma need_rel {A B C} (P : A -> B -> C -> Prop) md a b c :
  optrel3 P a b c -> orel3 P (need md a) (need md b) (need md c).
Proof. by case: a => [a|]; case: b => [b|]; case: c => [c|] //=; case: md. Qed.

Lemma orel3_is_ok {A B C} (P : A -> B -> C -> Prop) a b c :
  orel3 P a b c -> is_ok b = is_ok a /\ is_ok c = is_ok a.
Proof. by case: a => [a| | |]; case: b => [b| | |]; case: c => [c| | |]. Qed.

Lemma optrel3_isSome {A B C} (P : A -> B -> C -> Prop) a b c :
  optrel3 P a b c -> isSome b = isSome a /\ isSome c = isSome a.
Proof. by case: a => [a|]; case: b => [b|]; case: c => [c|]. Qed.

Section Gen.
Variable R : rcfType.
Variables (n m p : nat).
Notation X := 'cV[R]_n.
Notation Y := 'cV[R]_m.
Notation U := 'cV[R]_p.
Notation kfe := (kfe R n n m m p).
Variables (RX : X -> X -> X -> Prop) (RY : Y -> Y -> Y -> Prop) (RU : U -> U -> U -> Prop).
Variables (RA RQ RP : 'M[R]_n -> 'M[R]_n -> 'M[R]_n -> Prop) (RR : 'M[R]_m -> 'M[R]_m -> 'M[R]_m -> Prop).
Variable (RC : 'M[R]_(m, n) -> 'M[R]_(m, n) -> 'M[R]_(m, n) -> Prop).
Variable (RB : 'M[R]_(n, p) -> 'M[R]_(n, p) -> 'M[R]_(n, p) -> Prop).
Variable (RD : 'M[R]_(m, p) -> 'M[R]_(m, p) -> 'M[R]_(m, p) -> Prop).
Variable (RK : 'M[R]_(n, m) -> 'M[R]_(n, m) -> 'M[R]_(n, m) -> Prop).
(** Whether cached predictions and results are related too. *)
Variable strict : bool.

Definition RE (e1 e2 e3 : kfe) : Prop :=
  [/\ optrel3 RA (kA e1) (kA e2) (kA e3), optrel3 RC (kC e1) (kC e2) (kC e3),
      optrel3 RQ (kQ e1) (kQ e2) (kQ e3), optrel3 RR (kR e1) (kR e2) (kR e3) &
      optrel3 RP (kP e1) (kP e2) (kP e3)] /\
  optrel3 RB (kB e1) (kB e2) (kB e3) /\ optrel3 RD (kD e1) (kD e2) (kD e3) /\
  (strict -> [/\ mrel3 RX (kxbar e1) (kxbar e2) (kxbar e3), mrel3 RY (kybar e1) (kybar e2) (kybar e3),
                 optrel3 RX (kinno e1) (kinno e2) (kinno e3) & optrel3 RK (kgain e1) (kgain e2) (kgain e3)]).

Inductive RS : kset R n n m m p -> kset R n n m m p -> kset R n n m m p -> Prop :=
| rs_A a b c : optrel3 RA a b c -> RS (SetA _ _ _ _ a) (SetA _ _ _ _ b) (SetA _ _ _ _ c)
| rs_C a b c : optrel3 RC a b c -> RS (SetC _ _ _ a) (SetC _ _ _ b) (SetC _ _ _ c)
| rs_Q a b c : optrel3 RQ a b c -> RS (SetQ _ _ _ _ a) (SetQ _ _ _ _ b) (SetQ _ _ _ _ c)
| rs_R a b c : optrel3 RR a b c -> RS (SetR _ _ _ _ a) (SetR _ _ _ _ b) (SetR _ _ _ _ c)
| rs_P a b c : optrel3 RP a b c -> RS (SetP _ _ _ _ a) (SetP _ _ _ _ b) (SetP _ _ _ _ c)
| rs_B a b c : optrel3 RB a b c -> RS (SetB _ _ _ a) (SetB _ _ _ b) (SetB _ _ _ c)
| rs_D a b c : optrel3 RD a b c -> RS (SetD _ _ _ a) (SetD _ _ _ b) (SetD _ _ _ c).

Hypothesis HAx : forall A1 A2 A3 x1 x2 x3, RA A1 A2 A3 -> RX x1 x2 x3 -> RX (A1 *m x1) (A2 *m x2) (A3 *m x3).
Hypothesis HBu : forall A1 A2 A3 x1 x2 x3, RB A1 A2 A3 -> RU x1 x2 x3 -> RX (A1 *m x1) (A2 *m x2) (A3 *m x3).
Hypothesis HCx : forall A1 A2 A3 x1 x2 x3, RC A1 A2 A3 -> RX x1 x2 x3 -> RY (A1 *m x1) (A2 *m x2) (A3 *m x3).
Hypothesis HDu : forall A1 A2 A3 x1 x2 x3, RD A1 A2 A3 -> RU x1 x2 x3 -> RY (A1 *m x1) (A2 *m x2) (A3 *m x3).
Hypothesis HKy : forall A1 A2 A3 x1 x2 x3, RK A1 A2 A3 -> RY x1 x2 x3 -> RX (A1 *m x1) (A2 *m x2) (A3 *m x3).
Hypothesis HXD : forall x1 x2 x3 y1 y2 y3, RX x1 x2 x3 -> RX y1 y2 y3 -> RX (x1 + y1) (x2 + y2) (x3 + y3).
Hypothesis HYD : forall x1 x2 x3 y1 y2 y3, RY x1 x2 x3 -> RY y1 y2 y3 -> RY (x1 + y1) (x2 + y2) (x3 + y3).
Hypothesis HYN : forall x1 x2 x3, RY x1 x2 x3 -> RY (- x1) (- x2) (- x3).
Hypothesis HB0 : forall A1 A2 A3, RB A1 A2 A3 -> (A2 == 0) = (A1 == 0) /\ (A3 == 0) = (A1 == 0).
Hypothesis HD0 : forall A1 A2 A3, RD A1 A2 A3 -> (A2 == 0) = (A1 == 0) /\ (A3 == 0) = (A1 == 0).
Hypothesis Hcov : forall A1 A2 A3 C1 C2 C3 Q1 Q2 Q3 R1 R2 R3 P1 P2 P3,
  RA A1 A2 A3 -> RC C1 C2 C3 -> RQ Q1 Q2 Q3 -> RR R1 R2 R3 -> RP P1 P2 P3 ->
  optrel3 (fun a b c => RK a.1 b.1 c.1 /\ RP a.2 b.2 c.2)
    (k_cov A1 C1 Q1 R1 P1) (k_cov A2 C2 Q2 R2 P2) (k_cov A3 C3 Q3 R3 P3).

Notation lp := (@lkf_predict R n m p).

Lemma lkf_predict_rel md e1 e2 e3 k x1 x2 x3 u1 u2 u3 v1 v2 v3 :
  RE e1 e2 e3 -> RX x1 x2 x3 -> orel3 RU u1 u2 u3 -> orel3 RU v1 v2 v3 ->
  orel3 (fun a b c => mrel3 RX a.1 b.1 c.1 /\ mrel3 RY a.2 b.2 c.2)
    (lp md e1 k x1 u1 v1) (lp md e2 k x2 u2 v2) (lp md e3 k x3 u3 v3).
Proof.
case=> [[EA EC EQ ER EP] [EB [ED _]]] Hx Hu Hv; rewrite /lkf_predict.
apply: orel3_bind (need_rel md EA) _ => A1 A2 A3 HA.
have [-> ->] := optrel3_isSome EB.
apply: orel3_bind (orel3_assert md _) _ => _ _ _ _.
apply: orel3_bind (need_rel md EC) _ => C1 C2 C3 HC.
have HX : orel3 RX
   (if (0 < p)%N then do B <- need md (kB e1); if B == 0 then Ok (A1 *m x1) else do u <- u1; Ok (A1 *m x1 + B *m u) else Ok (A1 *m x1))
   (if (0 < p)%N then do B <- need md (kB e2); if B == 0 then Ok (A2 *m x2) else do u <- u2; Ok (A2 *m x2 + B *m u) else Ok (A2 *m x2))
   (if (0 < p)%N then do B <- need md (kB e3); if B == 0 then Ok (A3 *m x3) else do u <- u3; Ok (A3 *m x3 + B *m u) else Ok (A3 *m x3)).
  case: ifP => _; last exact: HAx.
  apply: orel3_bind (need_rel md EB) _ => B1 B2 B3 HB.
  have [-> ->] := HB0 HB; case: ifP => _; first exact: HAx.
  apply: orel3_bind Hu _ => a b c Hab /=; apply: HXD; [exact: HAx|exact: HBu].
apply: orel3_bind HX _ => y1 y2 y3 Hy.
apply: (@orel3_bind _ _ _ _ _ _ RY) => [|z1 z2 z3 Hz]; last first.
  by split; [exact: mrel3_put|split=> //; split].
move: ED; case: (kD e1) => [D1|]; case: (kD e2) => [D2|]; case: (kD e3) => [D3|] //= HD; last exact: HCx.
have [-> ->] := HD0 HD; case: ifP => _; last exact: HCx.
apply: orel3_bind Hv _ => a b c Hab /=; apply: HYD; [exact: HCx|exact: HDu].
Qed.

Lemma lkf_Hpred md e1 e2 e3 k x1 x2 x3 u1 u2 u3 v1 v2 v3 :
  RE e1 e2 e3 -> RX x1 x2 x3 -> orel3 RU u1 u2 u3 -> orel3 RU v1 v2 v3 ->
  orel3 (fun a b c => RE (k_with_pred e1 a) (k_with_pred e2 b) (k_with_pred e3 c))
    (lp md e1 k x1 u1 v1) (lp md e2 k x2 u2 v2) (lp md e3 k x3 u3 v3).
Proof.
move=> He Hx Hu Hv; apply: orel3_mono (lkf_predict_rel md k He Hx Hu Hv) => a b c [H1 H2].
case: He => H [EB [ED Hs]]; case: e1 H EB ED Hs => a1 c1 q1 r1 p1 b1 d1 xb1 yb1 i1 g1.
case: e2 => a2 c2 q2 r2 p2 b2 d2 xb2 yb2 i2 g2; case: e3 => a3 c3 q3 r3 p3 b3 d3 xb3 yb3 i3 g3.
by move=> /= H EB ED Hs; split=> //; split=> //; split=> // st; have [_ _ H3 H4] := Hs st.
Qed.

Lemma lkf_Hstep md : steprel3 RX RY RU RE (@lkf_step R n m p) (@lkf_step R n m p) (@lkf_step R n m p) md.
Proof.
move=> e1 e2 e3 k x1 x2 x3 y1 y2 y3 u1 u2 u3 v1 v2 v3 He Hx Hy Hu Hv.
rewrite /lkf_step /kf_step; have [-> ->] := orel3_is_ok Hy.
apply: orel3_bind (orel3_assert md _) _ => _ _ _ _.
have [[EA EC EQ ER EP] [EB [ED _]]] := He.
apply: orel3_bind (need_rel md EA) _ => A1 A2 A3 HA.
apply: orel3_bind (need_rel md EC) _ => C1 C2 C3 HC.
apply: orel3_bind (need_rel md EQ) _ => Q1 Q2 Q3 HQ.
apply: orel3_bind (need_rel md ER) _ => R1 R2 R3 HR.
apply: orel3_bind (need_rel md EP) _ => P1 P2 P3 HP.
apply: orel3_bind (lkf_predict_rel md k He Hx Hu Hv) _ => a b c [Ha Hb].
apply: orel3_bind (mrel3_get RX md _ _ _ Ha) _ => xb1 xb2 xb3 Hxb.
apply: orel3_bind (mrel3_get RY md _ _ _ Hb) _ => yb1 yb2 yb3 Hyb.
apply: orel3_bind Hy _ => z1 z2 z3 Hz.
move: (Hcov HA HC HQ HR HP).
case: (k_cov A1 _ _ _ _) => [[K1 P1']|]; case: (k_cov A2 _ _ _ _) => [[K2 P2']|];
  case: (k_cov A3 _ _ _ _) => [[K3 P3']|] //= [HK HP'].
have Hi : RX (K1 *m vdiff z1 yb1) (K2 *m vdiff z2 yb2) (K3 *m vdiff z3 yb3).
  by apply: HKy => //; apply: HYD => //; exact: HYN.
split; first exact: HXD.
case: (He); clear -Ha Hb Hi HK HP'.
case: e1 => a1 c1 q1 r1 p1 b1 d1 xb1' yb1' i1 g1; case: e2 => a2 c2 q2 r2 p2 b2 d2 xb2' yb2' i2 g2.
by case: e3 => a3 c3 q3 r3 p3 b3 d3 xb3' yb3' i3 g3 /= [H1 H2 H3 H4 H5] [H6 [H7 _]]; do 3!split=> //.
Qed.

Lemma lkf_Hset k1 k2 k3 e1 e2 e3 : RS k1 k2 k3 -> RE e1 e2 e3 -> RE (k_set k1 e1) (k_set k2 e2) (k_set k3 e3).
Proof.
case: e1 => a1 c1 q1 r1 p1 b1 d1 xb1' yb1' i1 g1; case: e2 => a2 c2 q2 r2 p2 b2 d2 xb2' yb2' i2 g2.
case: e3 => a3 c3 q3 r3 p3 b3 d3 xb3' yb3' i3 g3.
by case=> a b c H [/= [H1 H2 H3 H4 H5] [H6 [H7 H8]]].
Qed.

Lemma lkf_Hclear e1 e2 e3 : RE e1 e2 e3 ->
  RE (k_set (SetP _ _ _ _ None) e1) (k_set (SetP _ _ _ _ None) e2) (k_set (SetP _ _ _ _ None) e3).
Proof. by apply: lkf_Hset; constructor. Qed.

(** The three runs stay related. *)
Lemma lkf_run_rel md ops1 ops2 ops3 s1 s2 s3 :
  all3 (koprel3 RX RY RU RS) ops1 ops2 ops3 -> zrel3 RX RY RU RE s1 s2 s3 ->
  orel3 (zrel3 RX RY RU RE) (@lkf_run R n m p md ops1 s1) (lkf_run md ops2 s2) (lkf_run md ops3 s3).
Proof.
apply: k_run_rel; [exact: lkf_Hstep|exact: lkf_Hpred|exact: lkf_Hset|exact: lkf_Hclear].
Qed.

Lemma lkf_init_rel : zrel3 RX RY RU RE (lkf_init R n m p) (lkf_init R n m p) (lkf_init R n m p).
Proof.
do 6!split=> //; split; first by do 4!split.
do 2!(split; first by split=> //; split=> //; constructor).
by do 4!split=> //.
Qed.
End Gen.

(** ** Instances *)
Section Inst.
Variable R : rcfType.
Variables (n m p : nat).

(** All three equal. *)
Lemma eq3_cov (A1 A2 A3 : 'M[R]_n) (C1 C2 C3 : 'M[R]_(m, n)) Q1 Q2 Q3 R1 R2 R3 P1 P2 P3 :
  eq3 A1 A2 A3 -> eq3 C1 C2 C3 -> eq3 Q1 Q2 Q3 -> eq3 R1 R2 R3 -> eq3 P1 P2 P3 ->
  optrel3 (fun a b c => eq3 a.1 b.1 c.1 /\ eq3 a.2 b.2 c.2)
    (k_cov A1 C1 Q1 R1 P1) (k_cov A2 C2 Q2 R2 P2) (k_cov A3 C3 Q3 R3 P3).
Proof. by do 5!case=> -> ->; case: k_cov. Qed.

(** The third datum combines the first two. *)
Definition aff (c : R) k l (a b d : 'M[R]_(k, l)) : Prop := d = c *: a + (1 - c) *: b.

Lemma affD c k l (a b d a' b' d' : 'M[R]_(k, l)) : aff c a b d -> aff c a' b' d' -> aff c (a + a') (b + b') (d + d').
Proof. rewrite /aff => -> ->; mxring. Qed.
Lemma affN c k l (a b d : 'M[R]_(k, l)) : aff c a b d -> aff c (- a) (- b) (- d).
Proof. rewrite /aff => ->; mxring. Qed.
Lemma affM c k l q (M1 M2 M3 : 'M[R]_(k, l)) (a b d : 'M[R]_(l, q)) : eq3 M1 M2 M3 -> aff c a b d ->
  aff c (M1 *m a) (M2 *m b) (M3 *m d).
Proof. by case=> -> ->; rewrite /aff => ->; rewrite mulmxDr -!scalemxAr. Qed.
Lemma eq3_0 k l (M1 M2 M3 : 'M[R]_(k, l)) : eq3 M1 M2 M3 -> (M2 == 0) = (M1 == 0) /\ (M3 == 0) = (M1 == 0).
Proof. by case=> -> ->. Qed.

Lemma lkf_run_aff c md (ops1 ops2 ops3 : list (kop R n n m m p)) s1 s2 s3 :
  let RE' := RE (@aff c n 1) (@aff c m 1) (@eq3 _) (@eq3 _) (@eq3 _) (@eq3 _) (@eq3 _) (@eq3 _) (@eq3 _) (@eq3 _) true in
  all3 (koprel3 (@aff c n 1) (@aff c m 1) (@aff c p 1)
     (RS (@eq3 _) (@eq3 _) (@eq3 _) (@eq3 _) (@eq3 _) (@eq3 _) (@eq3 _))) ops1 ops2 ops3 ->
  zrel3 (@aff c n 1) (@aff c m 1) (@aff c p 1) RE' s1 s2 s3 ->
  orel3 (zrel3 (@aff c n 1) (@aff c m 1) (@aff c p 1) RE')
   (lkf_run md ops1 s1) (lkf_run md ops2 s2) (lkf_run md ops3 s3).
Proof.
move=> RE'; apply: lkf_run_rel; try by [move=> *; exact: affM|move=> *; exact: affD
  |move=> *; exact: affN|move=> *; exact: eq3_0|exact: eq3_cov].
Qed.

(** Scaled covariances. *)
Definition scl (c : R) k l (a b d : 'M[R]_(k, l)) : Prop := b = c *: a /\ d = a.
Definition scl_psd c k (a b d : 'M[R]_k) : Prop := scl c a b d /\ psd a.
Definition scl_pd c k (a b d : 'M[R]_k) : Prop := scl c a b d /\ pd a.

Lemma joseph_scale c (C : 'M[R]_(m, n)) Rm Pb G : joseph C (c *: Rm) (c *: Pb) G = c *: joseph C Rm Pb G.
Proof. by rewrite /joseph scalerDr -?scalemxAr -?scalemxAl -?scalemxAr -?scalemxAl. Qed.

Lemma k_cov_scale c (A : 'M[R]_n) (C : 'M[R]_(m, n)) Q Rm P : 0 < c -> psd Q -> pd Rm -> psd P ->
  exists K P', [/\ k_cov A C Q Rm P = Some (K, P'), k_cov A C (c *: Q) (c *: Rm) (c *: P) = Some (K, c *: P') & psd P'].
Proof.
move=> c0 pQ pR pP.
have [K [E KS pS pPb]] := k_cov_spec A C pQ pR pP.
have [K' [E' KS' pS' _]] := k_cov_spec A C (psdZ (ltW c0) pQ) (pdZ c0 pR) (psdZ (ltW c0) pP).
have eP : k_pbar A (c *: Q) (c *: P) = c *: k_pbar A Q P.
  by rewrite /k_pbar scalerDr -?scalemxAr -?scalemxAl -?scalemxAr -?scalemxAl.
rewrite eP in E' KS' pS'.
have eS : k_inoCov C (c *: Rm) (c *: k_pbar A Q P) = c *: k_inoCov C Rm (k_pbar A Q P).
  by move: (k_pbar A Q P) => Pb; rewrite /k_inoCov scalerDr -?scalemxAr -?scalemxAl -?scalemxAr -?scalemxAl.
rewrite eS in KS' pS'.
have eK : K' = K.
  have u0 : c \is a GRing.unit by rewrite unitfE gt_eqF.
  move: KS'; rewrite -scalemxAr -scalemxAl => /(scalerI (lt0r_neq0 c0)) KS'.
  by rewrite -[K'](mulmxK (pd_unit pS)) KS' -KS mulmxK ?pd_unit.
exists K, (joseph C Rm (k_pbar A Q P) K); split=> //; last exact: joseph_psd pPb (pd_psd pR).
by rewrite E' eK joseph_scale.
Qed.

Lemma scl_cov c : 0 < c -> forall (A1 A2 A3 : 'M[R]_n) (C1 C2 C3 : 'M[R]_(m, n)) Q1 Q2 Q3 R1 R2 R3 P1 P2 P3,
  eq3 A1 A2 A3 -> eq3 C1 C2 C3 -> scl_psd c Q1 Q2 Q3 -> scl_pd c R1 R2 R3 -> scl_psd c P1 P2 P3 ->
  optrel3 (fun a b d => eq3 a.1 b.1 d.1 /\ scl_psd c a.2 b.2 d.2)
    (k_cov A1 C1 Q1 R1 P1) (k_cov A2 C2 Q2 R2 P2) (k_cov A3 C3 Q3 R3 P3).
Proof.
move=> c0 A1 A2 A3 C1 C2 C3 Q1 Q2 Q3 R1 R2 R3 P1 P2 P3 [-> ->] [-> ->] [[-> ->] pQ] [[-> ->] pR] [[-> ->] pP].
by have [K [P' [-> -> pP']]] := k_cov_scale A1 C1 c0 pQ pR pP.
Qed.

Lemma eq3M k l q (M1 M2 M3 : 'M[R]_(k, l)) (a b d : 'M[R]_(l, q)) : eq3 M1 M2 M3 -> eq3 a b d ->
  eq3 (M1 *m a) (M2 *m b) (M3 *m d).
Proof. by case=> -> -> [-> ->]. Qed.
Lemma eq3D k l (a b d a' b' d' : 'M[R]_(k, l)) : eq3 a b d -> eq3 a' b' d' -> eq3 (a + a') (b + b') (d + d').
Proof. by case=> -> -> [-> ->]. Qed.
Lemma eq3N k l (a b d : 'M[R]_(k, l)) : eq3 a b d -> eq3 (- a) (- b) (- d).
Proof. by case=> -> ->. Qed.

Lemma lkf_run_scale c md (ops1 ops2 ops3 : list (kop R n n m m p)) s1 s2 s3 : 0 < c ->
  let RE' := RE (@eq3 _) (@eq3 _) (@eq3 _) (@scl_psd c n) (@scl_psd c n) (@scl_pd c m) (@eq3 _) (@eq3 _) (@eq3 _) (@eq3 _) true in
  all3 (koprel3 (@eq3 _) (@eq3 _) (@eq3 _)
     (RS (@eq3 _) (@scl_psd c n) (@scl_psd c n) (@scl_pd c m) (@eq3 _) (@eq3 _) (@eq3 _))) ops1 ops2 ops3 ->
  zrel3 (@eq3 _) (@eq3 _) (@eq3 _) RE' s1 s2 s3 ->
  orel3 (zrel3 (@eq3 _) (@eq3 _) (@eq3 _) RE')
   (lkf_run md ops1 s1) (lkf_run md ops2 s2) (lkf_run md ops3 s3).
Proof.
move=> c0 RE'; apply: lkf_run_rel; try by [move=> *; exact: eq3M|move=> *; exact: eq3D
  |move=> *; exact: eq3N|move=> *; exact: eq3_0|exact: scl_cov].
Qed.

(** Change of coordinates. *)
Section Coord.
Variable T : 'M[R]_n.
Hypothesis uT : T \in unitmx.
Definition cvec k (a b d : 'M[R]_(n, k)) : Prop := b = T *m a /\ d = a.
Definition crow k (a b d : 'M[R]_(k, n)) : Prop := b = a *m invmx T /\ d = a.
Definition csim (a b d : 'M[R]_n) : Prop := b = T *m a *m invmx T /\ d = a.
Definition ccov (a b d : 'M[R]_n) : Prop := b = T *m a *m T^T /\ d = a.

Lemma ccov_cov (A1 A2 A3 : 'M[R]_n) (C1 C2 C3 : 'M[R]_(m, n)) Q1 Q2 Q3 R1 R2 R3 P1 P2 P3 :
  csim A1 A2 A3 -> crow C1 C2 C3 -> ccov Q1 Q2 Q3 -> eq3 R1 R2 R3 -> ccov P1 P2 P3 ->
  optrel3 (fun a b d => cvec a.1 b.1 d.1 /\ ccov a.2 b.2 d.2)
    (k_cov A1 C1 Q1 R1 P1) (k_cov A2 C2 Q2 R2 P2) (k_cov A3 C3 Q3 R3 P3).
Proof.
case=> -> ->; case=> -> ->; case=> -> ->; case=> -> ->; case=> -> ->.
have uTt : T^T \in unitmx by rewrite unitmx_tr.
have eP : k_pbar (T *m A1 *m invmx T) (T *m Q1 *m T^T) (T *m P1 *m T^T) = T *m k_pbar A1 Q1 P1 *m T^T.
  rewrite /k_pbar mulmxDr mulmxDl; congr (_ + _).
  by rewrite !trmx_mul trmx_inv !mulmxA mulmxKV // (mulmxK uTt).
have eS : k_inoCov (C1 *m invmx T) R1 (T *m k_pbar A1 Q1 P1 *m T^T) = k_inoCov C1 R1 (k_pbar A1 Q1 P1).
  by rewrite /k_inoCov trmx_mul trmx_inv !mulmxA mulmxKV // (mulmxK uTt).
rewrite /k_cov eP eS; case: (chol_inverse _) => [Si|] //=.
set Pb := k_pbar _ _ _.
have eK : k_gain (C1 *m invmx T) (T *m Pb *m T^T) Si = T *m k_gain C1 Pb Si.
  by rewrite /k_gain trmx_mul trmx_inv !mulmxA (mulmxK uTt).
split; first by split=> //=; rewrite eK.
split=> //=; rewrite eK; set K := k_gain _ _ _.
have eU : k_covUpdate (C1 *m invmx T) (T *m K) (T *m Pb *m T^T) = T *m k_covUpdate C1 K Pb *m T^T.
  rewrite /k_covUpdate !mulmxDl mulmxDr mulmxDl !mul1mx; congr (_ + _).
  by rewrite -mulmxN !mulmxA mulmxKV.
by rewrite eU /k_symmetrize -scalemxAr -scalemxAl mulmxDr mulmxDl !trmx_mul trmxK !mulmxA.
Qed.

Lemma cvec0 k (a b d : 'M[R]_(n, k)) : cvec a b d -> (b == 0) = (a == 0) /\ (d == 0) = (a == 0).
Proof.
case=> -> ->; split=> //; apply/eqP/eqP => [e|->]; last by rewrite mulmx0.
by rewrite -(mulKmx uT a) e mulmx0.
Qed.
Lemma cvecD k (a b d a' b' d' : 'M[R]_(n, k)) : cvec a b d -> cvec a' b' d' -> cvec (a + a') (b + b') (d + d').
Proof. by case=> -> -> [-> ->]; split=> //; rewrite mulmxDr. Qed.
Lemma csimM k (M1 M2 M3 : 'M[R]_n) (a b d : 'M[R]_(n, k)) : csim M1 M2 M3 -> cvec a b d -> cvec (M1 *m a) (M2 *m b) (M3 *m d).
Proof. by case=> -> -> [-> ->]; split=> //; rewrite !mulmxA mulmxKV. Qed.
Lemma cvecM k l (M1 M2 M3 : 'M[R]_(n, k)) (a b d : 'M[R]_(k, l)) : cvec M1 M2 M3 -> eq3 a b d -> cvec (M1 *m a) (M2 *m b) (M3 *m d).
Proof. by case=> -> -> [-> ->]; split=> //; rewrite !mulmxA. Qed.
Lemma crowM k l (M1 M2 M3 : 'M[R]_(k, n)) (a b d : 'M[R]_(n, l)) : crow M1 M2 M3 -> cvec a b d -> eq3 (M1 *m a) (M2 *m b) (M3 *m d).
Proof. by case=> -> -> [-> ->]; split=> //; rewrite !mulmxA mulmxKV. Qed.

Lemma lkf_run_coord md (ops1 ops2 ops3 : list (kop R n n m m p)) s1 s2 s3 :
  let RE' := RE (@cvec 1) (@eq3 _) csim ccov ccov (@eq3 _) (@crow m) (@cvec p) (@eq3 _) (@cvec m) true in
  all3 (koprel3 (@cvec 1) (@eq3 _) (@eq3 _)
     (RS csim ccov ccov (@eq3 _) (@crow m) (@cvec p) (@eq3 _))) ops1 ops2 ops3 ->
  zrel3 (@cvec 1) (@eq3 _) (@eq3 _) RE' s1 s2 s3 ->
  orel3 (zrel3 (@cvec 1) (@eq3 _) (@eq3 _) RE')
   (lkf_run md ops1 s1) (lkf_run md ops2 s2) (lkf_run md ops3 s3).
Proof.
move=> RE'; apply: lkf_run_rel; try by [move=> *; exact: eq3M|move=> *; exact: eq3D
  |move=> *; exact: eq3N|move=> *; exact: eq3_0|move=> *; exact: cvec0|move=> *; exact: cvecD
  |move=> *; exact: csimM|move=> *; exact: cvecM|move=> *; exact: crowM|exact: ccov_cov].
Qed.
End Coord.

(** Forgetting the cached predictions. *)
Lemma lkf_run_forget md (ops : list (kop R n n m m p)) s1 s2 :
  let RE' := RE (@eq3 _) (@eq3 _) (@eq3 _) (@eq3 _) (@eq3 _) (@eq3 _) (@eq3 _) (@eq3 _) (@eq3 _) (@eq3 _) false in
  zrel3 (@eq3 _) (@eq3 _) (@eq3 _) RE' s1 s2 s1 ->
  orel3 (zrel3 (@eq3 _) (@eq3 _) (@eq3 _) RE') (lkf_run md ops s1) (lkf_run md ops s2) (lkf_run md ops s1).
Proof.
move=> RE'; apply: lkf_run_rel; try by [move=> *; exact: eq3M|move=> *; exact: eq3D
  |move=> *; exact: eq3N|move=> *; exact: eq3_0|exact: eq3_cov].
elim: ops => [|o os IH]; constructor=> //; case: o => [o|ks|]; constructor; first exact: oprel3_eq.
by case: ks => [] [x|]; constructor.
Qed.
End Inst.
