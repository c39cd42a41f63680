(** Convergence of the LIPM estimators: an observer that corrects any error in two steps, whatever the rotations. *)
From Coq Require Import ZArith List Lia.
From mathcomp Require Import all_ssreflect all_algebra.
From mathcomp Require Import ring.
From Verif Require Import Base Defs ZDO MxLib Cholesky Kalman KFilter KFProofs Lipm SpecLipm LipmFilter LipmProofs KalmanLS KalmanLSThms KalmanBound KalmanConv LipmBound LipmUnidim.
Set Implicit Arguments.
Unset Strict Implicit.
Unset Printing Implicit Defensive.
Import Order.TTheory GRing.Theory Num.Theory.
Open Scope ring_scope.

Section Gen.
Variable R : rcfType.
(** [cov_bound] with a matrix that changes. *)
Lemma cov_bound2 n m (A Q P V V' : 'M[R]_n) (C : 'M[R]_(m, n)) Rm (K G : 'M[R]_(n, m)) c r : psd Q -> pd Rm -> psd P -> 0 <= c ->
  K *m k_inoCov C Rm (k_pbar A Q P) = k_pbar A Q P *m C^T ->
  loewner (((1%:M - G *m C) *m A) *m V *m ((1%:M - G *m C) *m A)^T) (r *: V') -> loewner (joseph C Rm Q G) ((1 - r) * c *: V') ->
  loewner P (c *: V) -> loewner (joseph C Rm (k_pbar A Q P) K) (c *: V').
Proof.
move=> pQ pR pP c0 KS HF HN HP x.
apply: (le_trans (@joseph_opt R n m C Rm _ K G pR (k_pbar_psd A pQ pP) KS x)).
have -> : qf (joseph C Rm (k_pbar A Q P) G) x = qf P (((1%:M - G *m C) *m A)^T *m x) + qf (joseph C Rm Q G) x.
  rewrite /joseph /k_pbar !qfD !qf_cong qfD mulmxA qf_cong trmx_mul !mulmxA -!addrA [RHS]addrCA; congr (_ + _).
have H1 := HP (((1%:M - G *m C) *m A)^T *m x); have H2 := HF x; have H3 := HN x.
rewrite qfZ in H1; rewrite qf_cong qfZ in H2; rewrite qfZ in H3.
apply: (le_trans (ler_add H1 H3)); rewrite qfZ.
have -> : c * qf V' x = c * (r * qf V' x) + (1 - r) * c * qf V' x by rewrite mulrBl mul1r mulrBl mulrCA mulrA addrC subrK.
by rewrite ler_add2r; apply: ler_wpmul2l.
Qed.
Lemma sqnD2 n (x y : 'cV[R]_n) : sqn (x + y) <= 2%:R * sqn x + 2%:R * sqn y.
Proof.
rewrite /sqn !mulr_sumr -big_split /=; apply: ler_sum => i _; rewrite mxE.
have := num_sum (x i 0) (y i 0) (ltr01 : 0 < 1 :> R); by rewrite invr1 -(natrD _ 1 1).
Qed.
Lemma sqnB2 n (x y : 'cV[R]_n) : sqn (x - y) <= 2%:R * sqn x + 2%:R * sqn y.
Proof. by rewrite -(sqnN y); exact: sqnD2. Qed.
Lemma sqnZ n (c : R) (x : 'cV[R]_n) : sqn (c *: x) = c ^+ 2 * sqn x.
Proof. by rewrite /sqn mulr_sumr; apply: eq_bigr => i _; rewrite mxE exprMn. Qed.
Lemma sqn_col p q (x : 'cV[R]_p) (y : 'cV[R]_q) : sqn (col_mx x y) = sqn x + sqn y.
Proof. by rewrite !sqn_tr tr_col_mx mul_row_col mxE. Qed.
Lemma sqn_sub p q (x : 'cV[R]_(p + q)) : sqn x = sqn (usubmx x) + sqn (dsubmx x).
Proof. by rewrite -{1}[x]vsubmxK sqn_col. Qed.
Lemma qf1 n (x : 'cV[R]_n) : qf 1%:M x = sqn x. Proof. by rewrite sqnE. Qed.
Lemma qf_FF n p (F : 'M[R]_(n, p)) x : qf (F *m F^T) x = sqn (F^T *m x).
Proof. by rewrite -{1}[F]mulmx1 qf_cong qf1. Qed.

Section Obs.
Variables (d : nat) (a : R).
Hypothesis a1 : 1 < a.
Definition orthd (o : 'M[R]_d) : Prop := o^T *m o = 1%:M /\ o *m o^T = 1%:M.
Lemma orthd_sqn o x : orthd o -> sqn (o *m x) = sqn x.
Proof. by case=> oo _; rewrite !sqn_tr trmx_mul -mulmxA (mulmxA o^T) oo mul1mx. Qed.
Lemma orthd_tr o : orthd o -> orthd o^T.
Proof. by case=> h1 h2; split; rewrite trmxK. Qed.
Let a10 : 0 < a - 1. Proof. by rewrite subr_gt0. Qed.
Let a0 : 0 < a. Proof. exact: lt_trans ltr01 a1. Qed.
Lemma num_grow (x y : R) : (a - 1) * (a * x ^+ 2 - y ^+ 2) <= (a * x - y) ^+ 2.
Proof.
rewrite -subr_ge0.
have -> : (a * x - y) ^+ 2 - (a - 1) * (a * x ^+ 2 - y ^+ 2) = a * (x - y) ^+ 2 by ring.
by apply: mulr_ge0; [apply: ltW|apply: sqr_ge0].
Qed.
Lemma grow o x : orthd o -> (a - 1) ^+ 2 * sqn x <= sqn ((a%:M - o) *m x).
Proof.
move=> Ho; rewrite mulmxBl mul_scalar_mx.
have -> : (a - 1) ^+ 2 * sqn x = \sum_i (a - 1) * (a * x i 0 ^+ 2 - (o *m x) i 0 ^+ 2).
  have E := orthd_sqn x Ho; rewrite -mulr_sumr sumrB -mulr_sumr -/(sqn x) -/(sqn (o *m x)) E.
  by rewrite expr2 -mulrA; congr (_ * _); rewrite mulrBl mul1r.
by apply: ler_sum => i _; rewrite [(a *: x - o *m x) i 0]mxE [(a *: x) i 0]mxE [(- (o *m x)) i 0]mxE; exact: num_grow.
Qed.
Lemma sqn0 n (x : 'cV[R]_n) : sqn x <= 0 -> x = 0.
Proof.
move=> H; apply/colP => i; rewrite mxE; apply/eqP; rewrite -sqrf_eq0 eq_le sqr_ge0 andbT.
by apply: le_trans H; rewrite /sqn (bigD1 i) //= ler_addl sumr_ge0 // => j _; exact: sqr_ge0.
Qed.
Lemma grow_unit o : orthd o -> a%:M - o \in unitmx.
Proof.
move=> Ho; rewrite -unitmx_tr -row_free_unit -kermx_eq0; apply/rowV0P => v /sub_kermxP Hv.
have H : (a%:M - o) *m v^T = 0 by apply: trmx_inj; rewrite trmx_mul trmxK Hv trmx0.
have := grow v^T Ho; rewrite H => Hg.
have Hs : sqn v^T <= 0.
  have Z0 : sqn (0 : 'cV[R]_d) = 0 by rewrite /sqn big1 // => i _; rewrite mxE expr0n.
  by move: Hg; rewrite Z0 pmulr_rle0 // exprn_gt0.
by apply: trmx_inj; rewrite trmx0; exact: sqn0.
Qed.
Definition fb : R := (a / (a - 1)) ^+ 2.
Lemma fb0 : 0 <= fb. Proof. exact: sqr_ge0. Qed.
Definition gn (o : 'M[R]_d) : 'M[R]_d := a *: invmx (a%:M - o).
Definition Wn (o : 'M[R]_d) : 'M[R]_d := gn o *m o.
Lemma gnT o y : orthd o -> sqn ((gn o)^T *m y) <= fb * sqn y.
Proof.
move=> Ho; set z := _ *m y.
have Ez : (a%:M - o^T) *m z = a *: y.
  rewrite /z /gn linearZ /= trmx_inv linearB /= tr_scalar_mx -scalemxAl -scalemxAr mulKVmx //.
  exact: grow_unit (orthd_tr Ho).
have := grow z (orthd_tr Ho); rewrite Ez sqnZ => H.
rewrite /fb exprMn exprVn mulrAC ler_pdivl_mulr; last by rewrite exprn_gt0.
rewrite [_ * (a - 1) ^+ 2]mulrC; exact: H.
Qed.
Lemma WnT o y : orthd o -> sqn ((Wn o)^T *m y) <= fb * sqn y.
Proof. by move=> Ho; rewrite /Wn trmx_mul -mulmxA orthd_sqn; [exact: gnT|exact: orthd_tr]. Qed.
Lemma gn_a o : orthd o -> a *: (1%:M - gn o) = - Wn o.
Proof.
move=> Ho; have U := grow_unit Ho; rewrite /Wn /gn; set M := invmx _.
have E : M *m (a%:M - o) = 1%:M by rewrite mulVmx.
have E2 : a *: M - M *m o = 1%:M by rewrite -E mulmxBr mul_mx_scalar.
by rewrite -{1}E2 -scalemxAl -[- (a *: (M *m o))]scalerN; congr (_ *: _); rewrite addrAC subrr add0r.
Qed.
Definition An (o : 'M[R]_d) : 'M[R]_(d + d) := block_mx a%:M 0 0 o.
Definition Gn (o : 'M[R]_d) : 'M[R]_(d + d, d) := col_mx (gn o) (1%:M - gn o).
Definition Ln (o : 'M[R]_d) : 'M[R]_(d + d, d) := col_mx (- Wn o) (Wn o).
Notation Cn := (lipC R d).
Lemma FnE o : orthd o -> (1%:M - Gn o *m Cn) *m An o = Ln o *m Cn.
Proof.
move=> Ho; rewrite /Gn /Ln /An /lipC !mul_col_row !mulmx1 (scalar_mx_block d d 1) opp_block_mx add_block_mx !add0r mulmx_block !mulmx0 addr0 add0r !add0r.
have E := gn_a Ho; rewrite !mul_mx_scalar; congr block_mx.
- by [].
- by rewrite mulNmx.
- by rewrite addr0 scalerN E opprK.
- by rewrite opprB addrC subrK.
Qed.
Definition okV (v : R) (V : 'M[R]_(d + d)) : Prop := Cn *m V *m Cn^T = Cn *m Cn^T /\ forall x, sqn x <= qf V x <= v * sqn x.
Definition vb : R := 1 + 4%:R * fb.
Definition Vn o : 'M[R]_(d + d) := 1%:M + (Ln o *m Cn) *m (Ln o *m Cn)^T.
Lemma CnT (x : 'cV[R]_d) : sqn (Cn^T *m x) = 2%:R * sqn x.
Proof. by rewrite /lipC tr_row_mx trmx1 mul_col_mx !mul1mx sqn_col mulr_natl. Qed.
Lemma FFb o x : orthd o -> sqn ((Ln o *m Cn)^T *m x) <= 4%:R * fb * sqn x.
Proof.
move=> Ho; rewrite trmx_mul -mulmxA CnT /Ln tr_col_mx linearN /= -{1}[x]vsubmxK mul_row_col mulNmx addrC -mulmxBr.
apply: le_trans (_ : 2%:R * (fb * (2%:R * sqn x)) <= _); last by rewrite [X in _ <= X](_ : _ = 2%:R * (fb * (2%:R * sqn x))) //; ring.
apply: ler_wpmul2l; first by rewrite ler0n.
apply: (le_trans (WnT _ Ho)); apply: ler_wpmul2l; first exact: fb0.
by apply: (le_trans (sqnB2 _ _)); rewrite -mulrDr addrC -sqn_sub.
Qed.
Lemma okV1 : okV vb 1%:M.
Proof.
split; first by rewrite mulmx1.
by move=> x; rewrite qf1 lexx /= mulrDl mul1r ler_addl; apply: mulr_ge0; [apply: mulr_ge0; [rewrite ler0n|exact: fb0]|exact: sqn_ge0].
Qed.

Lemma okVn o : orthd o -> okV vb (Vn o).
Proof.
move=> Ho; split.
  rewrite /Vn mulmxDr mulmx1 mulmxDl.
  have -> : Cn *m (Ln o *m Cn *m (Ln o *m Cn)^T) = 0.
    by rewrite !mulmxA /Ln /lipC mul_row_col !mul1mx addNr !mul0mx.
  by rewrite mul0mx addr0.
move=> x; rewrite /Vn qfD qf1 qf_FF ler_addl sqn_ge0 /= /vb mulrDl mul1r ler_add2l; exact: FFb.
Qed.
Lemma vb1 : 1 <= vb. Proof. by rewrite ler_addl; apply: mulr_ge0; [rewrite ler0n|exact: fb0]. Qed.
Lemma vb0 : 0 < vb. Proof. exact: lt_le_trans ltr01 vb1. Qed.
(** The error of the observer shrinks in the norm of [Vn]. *)
Lemma okV_shrink o V : orthd o -> okV vb V ->
  loewner (((1%:M - Gn o *m Cn) *m An o) *m V *m ((1%:M - Gn o *m Cn) *m An o)^T) ((1 - vb^-1) *: Vn o).
Proof.
move=> Ho [HC _]; rewrite (FnE Ho).
have -> : Ln o *m Cn *m V *m (Ln o *m Cn)^T = (Ln o *m Cn) *m (Ln o *m Cn)^T.
  by rewrite trmx_mul !mulmxA -(mulmxA (Ln o)) -(mulmxA (Ln o)) HC !mulmxA.
move=> x; have [_ Hv] := okVn Ho; have /andP[_ H] := Hv x.
have -> : qf (Ln o *m Cn *m (Ln o *m Cn)^T) x = qf (Vn o) x - sqn x by rewrite /Vn qfD qf1 addrC addKr.
rewrite qfZ mulrBl mul1r ler_add2l ler_opp2.
by rewrite mulrC ler_pdivr_mulr ?vb0 // mulrC.
Qed.
(** The noise that this observer takes in. *)
Lemma GnT o y : orthd o -> sqn ((Gn o)^T *m y) <= 4%:R * (1 + fb) * sqn y.
Proof.
move=> Ho; rewrite /Gn tr_col_mx -{1}[y]vsubmxK mul_row_col linearB /= trmx1 mulmxBl mul1mx.
set y1 := usubmx y; set y2 := dsubmx y.
apply: (le_trans (sqnD2 _ _)).
have H1 := gnT y1 Ho; have H2 := gnT y2 Ho; have H3 := sqnB2 y2 ((gn o)^T *m y2).
have -> : 4%:R * (1 + fb) * sqn y = 2%:R * (fb * sqn y1) + 2%:R * (2%:R * sqn y2 + 2%:R * (fb * sqn y2)) + (4%:R + 2%:R * fb) * sqn y1.
  by rewrite (sqn_sub y) -/y1 -/y2; ring.
rewrite -[X in X <= _]addr0; apply: ler_add.
  apply: ler_add; (apply: ler_wpmul2l; first by rewrite ler0n) => //.
  by apply: (le_trans H3); rewrite ler_add2l; apply: ler_wpmul2l => //; rewrite ler0n.
by apply: mulr_ge0; [apply: addr_ge0; [rewrite ler0n|apply: mulr_ge0; [rewrite ler0n|exact: fb0]]|exact: sqn_ge0].
Qed.
Definition gb : R := 4%:R * (1 + fb).
Lemma joseph_le o Q Rm q r : orthd o -> 0 <= q -> 0 <= r -> (forall x, qf Q x <= q * sqn x) -> (forall x, qf Rm x <= r * sqn x) ->
  forall x, qf (joseph Cn Rm Q (Gn o)) x <= (q * (2%:R + 4%:R * gb) + r * gb) * sqn x.
Proof.
move=> Ho q0 r0 HQ HR x; rewrite /joseph qfD !qf_cong mulrDl; have Hg := GnT x Ho.
apply: ler_add; last first.
  by apply: (le_trans (HR _)); rewrite -mulrA; apply: ler_wpmul2l.
apply: (le_trans (HQ _)); rewrite -mulrA; apply: ler_wpmul2l => //.
rewrite linearB /= trmx1 mulmxBl mul1mx trmx_mul -mulmxA.
have -> : (2%:R + 4%:R * gb) * sqn x = 2%:R * sqn x + 2%:R * (2%:R * (gb * sqn x)) by ring.
apply: (le_trans (sqnB2 _ _)); rewrite CnT; apply: ler_add => //.
by do 2!(apply: ler_wpmul2l; first by rewrite ler0n).
Qed.
Lemma AnT o y : orthd o -> sqn ((An o)^T *m y) <= a ^+ 2 * sqn y.
Proof.
move=> Ho; rewrite /An tr_block_mx !trmx0 tr_scalar_mx -{1}[y]vsubmxK mul_block_col !mul0mx addr0 add0r mul_scalar_mx sqn_col sqnZ (orthd_sqn _ (orthd_tr Ho)).
rewrite (sqn_sub y) mulrDr; apply: ler_add => //.
by apply: ler_pemull; [exact: sqn_ge0|apply: exprn_ege1; apply: ltW].
Qed.

(** The sequence of the steps of the filter. *)
Lemma lip_conv (Q P0 : 'M[R]_(d + d)) (Rm : 'M[R]_d) : pd Q -> pd Rm -> pd P0 -> exists rho c1 c2 c3 : R, 0 <= rho /\ rho < 1 /\
  forall p (B : 'M[R]_(d + d, p)) N (x xt w : nat -> 'cV[R]_(d + d)) (P : nat -> 'M[R]_(d + d)) (u : nat -> 'cV[R]_p) (y v : nat -> 'cV[R]_d) (o : nat -> 'M[R]_d) q,
  0 <= q -> P 0%N = P0 -> (forall i, orthd (o i)) ->
  (forall i, (i < N)%N -> step_to (mkM (An (o i)) B Cn Q Rm) (P i) (x i) (u i) (y i) (x i.+1) (P i.+1)) ->
  (forall i, (i < N)%N -> xt i.+1 = An (o i) *m xt i + B *m u i + w i) -> (forall i, (i < N)%N -> y i = Cn *m xt i.+1 + v i) ->
  (forall i, (i < N)%N -> sqn (w i) <= q) -> (forall i, (i < N)%N -> sqn (v i) <= q) ->
  sqn (xt N - x N) <= c1 * rho ^+ N * sqn (xt 0%N - x 0%N) + c2 * q /\ forall g, qf (P N) g <= c3 * sqn g.
Proof.
move=> pQ pR pP.
have [qb [qb0 HQb]] := dom1 Q; have [rb [rb0 HRb]] := dom1 Rm; have [pb [pb0 HPb]] := dom1 P0.
have [tp [tp0 Htp]] := dom 1%:M pP; have [tq [tq0 Htq]] := dom 1%:M pQ; have [tv [tv0 Htv]] := dom 1%:M pR.
have v0 := vb0; have g0 : 0 <= gb by apply: mulr_ge0; [rewrite ler0n|apply: addr_ge0; [exact: ler01|exact: fb0]].
pose J0 := qb * (2%:R + 4%:R * gb) + rb * gb.
have J00 : 0 <= J0 by apply: addr_ge0; apply: mulr_ge0 => //; apply: addr_ge0; rewrite ?ler0n //; apply: mulr_ge0; rewrite ?ler0n.
pose c := pb + vb * J0.
have c0 : 0 <= c by apply: addr_ge0 => //; apply: mulr_ge0 => //; apply: ltW.
pose dd := c * (vb * (a ^+ 2 * tq)).
have dd0 : 0 <= dd by apply: mulr_ge0 => //; apply: mulr_ge0; [apply: ltW|apply: mulr_ge0 => //; apply: sqr_ge0].
pose rr := dd / (1 + dd); have dd1 : 0 < 1 + dd by rewrite ltr_paddr // ltr01.
have rr0 : 0 <= rr by apply: divr_ge0 => //; apply: ltW.
have rr1 : 0 < 1 - rr by rewrite subr_gt0 /rr ltr_pdivr_mulr // mul1r ltr_addr ltr01.
pose dl := (1 - rr) / 4%:R; have dl0 : 0 < dl by apply: divr_gt0 => //; rewrite ltr0n.
pose rho := (1 + dl) ^+ 2 * rr.
have rho0 : 0 <= rho by apply: mulr_ge0 => //; apply: sqr_ge0.
have rho1 : rho < 1 by apply: rho_lt1.
have rho2 : 0 < 1 - rho by rewrite subr_gt0.
pose kap := ((1 + dl) * ((1 + dl^-1) * tq) + (1 + dl^-1) * tv) / (1 - rho).
have [d1 d2] : 0 <= 1 + dl /\ 0 <= 1 + dl^-1 by split; apply: addr_ge0; rewrite ?ler01 ?invr_ge0 // ltW.
have kap0 : 0 <= kap by apply: divr_ge0; [apply: addr_ge0; [apply: mulr_ge0 => //|]; apply: mulr_ge0|apply: ltW].
pose c4 := c * vb; have c40 : 0 <= c4 by apply: mulr_ge0 => //; apply: ltW.
exists rho, (c4 * tp), (c4 * kap), c4; split=> //; split=> //.
move=> p B N x xt w P u y v o q q0 EP Ho Hs Hx Hy Hw Hv.
have W1 l (M : 'M[R]_l) t (z : 'cV[R]_l) : 0 <= t -> loewner 1%:M (t *: M) -> within M z (t * sqn z).
  by move=> t1 H; apply: within_Z; apply: (within_loe _ H); [apply: sqn_ge0|apply: within_1].
set S := sqn (xt 0%N - x 0%N); have S0 : 0 <= S by apply: sqn_ge0.
have Inv i : (i <= N)%N -> exists V, okV vb V /\ psd (P i) /\ loewner (P i) (c *: V) /\ within (P i) (xt i - x i) (rho ^+ i * (tp * S) + kap * q).
  elim: i => [|i IH] Hi.
    exists 1%:M; split; first exact: okV1; rewrite EP; split; first exact: pd_psd; split.
      move=> z; rewrite qfZ qf1; apply: (le_trans (HPb z)); apply: ler_wpmul2r; first exact: sqn_ge0.
      by rewrite ler_addl; apply: mulr_ge0 => //; apply: ltW.
    rewrite expr0 mul1r; apply: (within_le (pd_psd pP) _ (W1 _ P0 tp _ tp0 Htp)).
    by rewrite ler_addl; apply: mulr_ge0.
  have [V [HV [pPi [HPi HWi]]]] := IH (ltnW Hi).
  have [K [[KS Su Ex EPn] pPn]] := Hs i Hi; rewrite /= in KS Su Ex EPn.
  have Epb : An (o i) *m P i *m (An (o i))^T + Q = k_pbar (An (o i)) Q (P i) by rewrite /k_pbar addrC mulmxA.
  rewrite Epb in KS EPn.
  have ES : Cn *m k_pbar (An (o i)) Q (P i) *m Cn^T + Rm = k_inoCov Cn Rm (k_pbar (An (o i)) Q (P i)) by rewrite /k_inoCov addrC mulmxA.
  rewrite ES in KS.
  exists (Vn (o i)); split; first exact: okVn; split=> //.
  have pQs := pd_psd pQ; split.
    rewrite EPn; apply: (cov_bound2 pQs pR pPi c0 KS (okV_shrink (Ho i) HV) _ HPi).
    move=> z; apply: (le_trans (joseph_le (Ho i) qb0 rb0 HQb HRb z)); rewrite -/J0 qfZ opprB addrCA subrr addr0.
    have [_ HVn] := okVn (Ho i); have /andP[Hn _] := HVn z.
    apply: (le_trans (_ : _ <= J0 * qf (Vn (o i)) z)); first by apply: ler_wpmul2l.
    apply: ler_wpmul2r; first by apply: le_trans Hn; exact: sqn_ge0.
    by rewrite /c mulrDr mulrA mulVf ?gt_eqF // mul1r ler_addr; apply: mulr_ge0 => //; rewrite invr_ge0; apply: ltW.
  have Hsh : loewner (An (o i) *m P i *m (An (o i))^T) (rr *: k_pbar (An (o i)) Q (P i)).
    apply: (share dd0 HPi); move=> z; rewrite !qfZ qf_cong /dd -mulrA; apply: ler_wpmul2l => //.
    case: HV => _ HV2; have /andP[_ H2] := HV2 ((An (o i))^T *m z); apply: (le_trans H2).
    rewrite -mulrA; apply: ler_wpmul2l; first exact: ltW.
    apply: (le_trans (AnT z (Ho i))); rewrite -mulrA; apply: ler_wpmul2l; first exact: sqr_ge0.
    by have := Htq z; rewrite qf1 qfZ.
  have Ww : within Q (w i) (tq * q) by apply: (within_le pQs _ (W1 _ Q tq _ tq0 Htq)); apply: ler_wpmul2l => //; exact: Hw.
  have Wv : within Rm (v i) (tv * q) by apply: (within_le (pd_psd pR) _ (W1 _ Rm tv _ tv0 Htv)); apply: ler_wpmul2l => //; exact: Hv.
  have cc : 0 <= rho ^+ i * (tp * S) + kap * q by apply: addr_ge0; apply: mulr_ge0 => //; [apply: exprn_ge0|apply: mulr_ge0].
  have := conv_step Cn K (B *m u i) 0 pPi pQs (pd_psd pR) cc (mulr_ge0 tq0 q0) (mulr_ge0 tv0 q0) dl0 rr0 Hsh HWi Ww Wv.
  rewrite /= -EPn -(Hx i Hi) !addr0 -(Hy i Hi) -Ex.
  have -> : (1 + dl) * ((1 + dl) * (rr * (rho ^+ i * (tp * S) + kap * q)) + (1 + dl^-1) * (tq * q)) + (1 + dl^-1) * (tv * q) = rho ^+ i.+1 * (tp * S) + kap * q; last by [].
  by rewrite exprS -mulrA; apply: num_rec; apply: kap_fix.
have [V [[_ HV] [pPN [HPN HWN]]]] := Inv N (leqnn N).
have Fin g : qf (P N) g <= c4 * sqn g.
  apply: (le_trans (HPN g)); rewrite qfZ /c4 -mulrA; apply: ler_wpmul2l => //.
  by have /andP[_ H] := HV g.
split=> //.
have := HWN (xt N - x N); set z := xt N - x N; rewrite -sqn_tr.
move=> H.
have [->|zn] := eqVneq (sqn z) 0.
  by apply: addr_ge0; apply: mulr_ge0 => //; [apply: mulr_ge0; [apply: mulr_ge0|apply: exprn_ge0]|apply: mulr_ge0].
have zp : 0 < sqn z by rewrite lt_def zn sqn_ge0.
rewrite -(ler_pmul2l zp) -expr2; apply: (le_trans H).
have -> : sqn z * (c4 * tp * rho ^+ N * S + c4 * kap * q) = c4 * sqn z * (rho ^+ N * (tp * S) + kap * q).
  by rewrite -num_arr.
apply: ler_wpmul2r; last by apply: Fin.
by apply: addr_ge0; apply: mulr_ge0 => //; [apply: exprn_ge0|apply: mulr_ge0].
Qed.
End Obs.
End Gen.

(** The initial covariances. *)
Section Init.
Variable R : rcfType.
Lemma pd_block d (P Q : 'M[R]_d) : pd P -> pd Q -> pd (block_mx P 0 0 Q).
Proof.
move=> pP pQ; split; first by case: (psd_block (pd_psd pP) (pd_psd pQ)).
move=> x x0; rewrite qf_block.
have [P0 Q0] : 0 <= qf P (usubmx x) /\ 0 <= qf Q (dsubmx x) by split; [case: (pd_psd pP)|case: (pd_psd pQ)] => _; apply.
have [E|n1] := eqVneq (usubmx x) 0; last by apply: ltr_paddr => //; apply: pP.2.
have n2 : dsubmx x != 0 by apply: contra x0 => /eqP E2; rewrite -[x]vsubmxK E E2 col_mx0.
by apply: ltr_paddl => //; apply: pQ.2.
Qed.
Lemma pd_bias d (P Q : 'M[R]_d) : pd P -> pd Q -> pd (lipPbias P Q).
Proof.
move=> pP pQ; have pB := pd_block pP pQ.
pose T := block_mx 1%:M (- 1%:M) 0 1%:M : 'M[R]_(d + d).
have E : lipPbias P Q = T *m block_mx P 0 0 Q *m T^T.
  rewrite /T tr_block_mx !mulmx_block !trmx0 !linearN /= !trmx1 !mulmx0 !mul0mx !mulmx1 !mul1mx !mulNmx ?mulmxN ?mul1mx ?mulmx1 ?addr0 ?add0r ?opprK.
  by rewrite /lipPbias addrC.
rewrite E; split; first by case: (psd_cong T (pd_psd pB)).
move=> x x0; rewrite qf_cong; apply: pB.2; apply: contra x0 => /eqP.
rewrite /T tr_block_mx linearN /= !trmx1 trmx0 -{1}[x]vsubmxK mul_block_col mulNmx !mul1mx mul0mx addr0 => /eqP; rewrite col_mx_eq0 => /andP[/eqP E1 /eqP].
by rewrite E1 oppr0 add0r => E2; rewrite -[x]vsubmxK E1 E2 col_mx0.
Qed.
Lemma pd_sqdiag d (v : 'cV[R]_d) : (forall i, v i 0 != 0) -> pd (sqdiag v).
Proof.
move=> Hv; split; first by case: (psd_sqdiag v).
have E : sqdiag v = diag_mx v^T *m (diag_mx v^T)^T.
  by rewrite tr_diag_mx mulmx_diag; congr diag_mx; apply/rowP => i; rewrite !mxE expr2.
move=> x x0; rewrite E qf_FF tr_diag_mx lt_def sqn_ge0 andbT; apply: contra x0 => /eqP H.
apply/eqP/colP => i; have := congr1 (fun z : 'cV[R]_d => z i 0) (sqn0 (eq_ind_r (fun z => z <= 0) (lexx 0) H)).
by rewrite mul_diag_mx !mxE => /eqP; rewrite mulf_eq0 (negbTE (Hv i)) => /eqP.
Qed.
Lemma pd_lip (s t : R) d : s != 0 -> t != 0 -> pd (block_mx (dblsq d s) 0 0 (dblsq d t)).
Proof. by move=> s0 t0; apply: pd_block; exact: pd_dblsq. Qed.
End Init.

(** The samples as steps of the filter. *)
Section Steps.
Variable R : rcfType.
Lemma samples_steps md (om dt : R) (y z : nat -> 'cV[R]_2) (o : nat -> 'M[R]_2) Q Rm :
  forall k j l sh x t ys us P, LI l sh x t ys us P -> sh = ShNone \/ sh = ShDone -> (forall i, l_lim l i 0 <= 0) ->
    l_om l = om -> l_dt l = dt -> l_pz l = z j -> l_po l = o j -> l_Q l = Q -> l_R l = Rm ->
  exists l' sh' t' ys' us' X Ps, [/\ l_run md (samples [seq (y i, z i, o i) | i <- iota j.+1 k]) l = Ok l', X 0%N = x, Ps 0%N = P,
    (forall i, (i < k)%N -> step_to (mkM (An (1 + om * dt) (o (j + i).+1 *m (o (j + i)%N)^T)) (lipB 2 om dt) (lipC R 2) Q Rm)
       (Ps i) (X i) (z (j + i)%N) (y (j + i).+1) (X i.+1) (Ps i.+1)) & LI l' sh' (X k) t' ys' us' (Ps k)].
Proof.
elim=> [|k IH] j l sh x t ys us P HL Hsh Hl Eom Edt Epz Epo EQ ER.
  by exists l, sh, t, ys, us, (fun=> x), (fun=> P).
have Hoff i : (0 < l_lim l i 0) = false by apply/negbTE; rewrite -leNgt.
have Hl2 : lim_ok (l_lim l) by rewrite /lim_ok !Hoff.
have [l1 [x' [P' [E1 [L1 [St [[e1 e2 e3 e4 e5] [g1 g2 g3 g4]]]]]]]] := sample_ok md (y j.+1) (z j.+1) (o j.+1) HL Hl2 Hsh.
rewrite /clampx Hoff /= in L1.
have Hl1 : forall i, l_lim l1 i 0 <= 0 by rewrite g1.
have [l2 [sh2 [t2 [ys2 [us2 [X [Ps [E2 EX EPs Hst HL2]]]]]]]] := IH j.+1 l1 ShDone x' (nxt t) _ _ P' L1 (or_intror erefl) Hl1 (etrans e1 Eom) (etrans e2 Edt) e5 g3 (etrans g4 EQ) (etrans g2 ER).
exists l2, sh2, t2, ys2, us2, (fun i => if i is i'.+1 then X i' else x), (fun i => if i is i'.+1 then Ps i' else P); split=> //.
- rewrite -E2; have -> : l_run md (samples [seq (y i, z i, o i) | i <- iota j.+1 k.+1]) l =
   obind (l_run md [:: LInputs (y j.+1) (z j.+1) (o j.+1); LUpdate R] l) (l_run md (samples [seq (y i, z i, o i) | i <- iota j.+2 k])).
    exact: (orun_app _ [:: LInputs (y j.+1) (z j.+1) (o j.+1); LUpdate R]).
  by rewrite E1.
- case=> [|i] Hi.
    by rewrite addn0 EX EPs -Epz -Epo -EQ -ER -Eom -Edt.
  by have := Hst i Hi; rewrite -(addSnnS j i).
Qed.
(** setInputs and update for each sample (unidim-lipm-dcm-estimator.cpp:169-182, .hpp:153-156). *)
Definition usamples (l : list (R * R)) : list (u_op R) := List.flat_map (fun s => [:: UInputs s.1 s.2; UUpdate R]) l.
Lemma usamples_steps md (om dt zs w ds : R) (y z : nat -> R) :
  forall k j l sh x t ys us P, UI l w ds sh x t ys us P -> sh = ShNone \/ sh = ShDone ->
    u_om l = om -> u_dt l = dt -> u_zs l = zs -> u_pz l = z j ->
  exists l' sh' t' ys' us' X Ps, [/\ u_run md (usamples [seq (y i, z i) | i <- iota j.+1 k]) l = Ok l', X 0%N = x, Ps 0%N = P,
    (forall i, (i < k)%N -> step_to (mkM (An (1 + om * dt) 1%:M) (lipB 1 om dt) (lipC R 1) (block_mx (dblsq 1 (om * dt * zs)) 0 0 (dblsq 1 w)) (dblsq 1 ds))
       (Ps i) (X i) (sc (z (j + i)%N)) (sc (y (j + i).+1)) (X i.+1) (Ps i.+1)) & UI l' w ds sh' (X k) t' ys' us' (Ps k)].
Proof.
elim=> [|k IH] j l sh x t ys us P HL Hsh Eom Edt Ezs Epz.
  by exists l, sh, t, ys, us, (fun=> x), (fun=> P).
have [l1 [x' [P' [E1 [L1 [St [e1 e2 e3 e4 e5]]]]]]] := u_sample_ok md (y j.+1) (z j.+1) HL Hsh.
have [l2 [sh2 [t2 [ys2 [us2 [X [Ps [E2 EX EPs Hst HL2]]]]]]]] := IH j.+1 l1 ShDone x' (nxt t) _ _ P' L1 (or_intror erefl) (etrans e1 Eom) (etrans e2 Edt) (etrans e4 Ezs) e5.
exists l2, sh2, t2, ys2, us2, (fun i => if i is i'.+1 then X i' else x), (fun i => if i is i'.+1 then Ps i' else P); split=> //.
- rewrite -E2; have -> : u_run md (usamples [seq (y i, z i) | i <- iota j.+1 k.+1]) l =
   obind (u_run md [:: UInputs (y j.+1) (z j.+1); UUpdate R] l) (u_run md (usamples [seq (y i, z i) | i <- iota j.+2 k])).
    exact: (orun_app _ [:: UInputs (y j.+1) (z j.+1); UUpdate R]).
  by rewrite E1.
- case=> [|i] Hi.
    by rewrite addn0 EX EPs -Epz -Ezs -Eom -Edt.
  by have := Hst i Hi; rewrite -(addSnnS j i).
Qed.
End Steps.
