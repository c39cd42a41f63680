(** Theorems about the covariances of the kinetics observer, for reachable states. *)
From mathcomp Require Import all_ssreflect all_algebra.
From Coq Require Import ZArith Lia List.
From Verif Require Import Base MxLib KinObs SpecKin KinProofs KinInv KinThms KinCov SpecKinCov KinCovProofs.
Set Implicit Arguments.
Unset Strict Implicit.
Unset Printing Implicit Defensive.
Import GRing.Theory Num.Theory.
Local Open Scope ring_scope.
Set Default Proof Using "Type".
Arguments set_cov : simpl never.
#[local] Arguments Z.add : simpl never.
#[local] Arguments Z.mul : simpl never.
#[local] Arguments Z.of_nat : simpl never.
#[local] Arguments Z.sub : simpl never.

Section Default.
Variable R : rcfType.
Lemma psd_diag n (r : 'rV[R]_n) : (forall i, 0 <= r 0 i) -> psd (diag_mx r).
Proof.
move=> H; pose D : 'M[R]_n := diag_mx (\row_i Num.sqrt (r 0 i)).
have -> : diag_mx r = D *m D^T; last exact: psd_gram.
apply/matrixP => i j; rewrite tr_diag_mx mul_mx_diag !mxE; case: eqP => [->|_] /=; last by rewrite !mulr0n mul0r.
by rewrite !mulr1n -expr2 sqr_sqrtr.
Qed.
Lemma psd_scal n (a : R) : 0 <= a -> psd (a%:M : 'M[R]_n).
Proof. by move=> H; rewrite -diag_const_mx; apply: psd_diag => i; rewrite mxE. Qed.

Definition row4 (a b c d : R) : 'rV[R]_12 := \row_i (if in_seg 0 3 i then a else if in_seg 3 3 i then b else if in_seg 6 3 i then c else d).
Lemma at_scal (a : R) z i j : (0 <= z)%Z -> in_seg z 3 i -> in_seg z 3 j -> mat_at (a%:M : 'M[R]_3) (i - Z.to_nat z)%nat (j - Z.to_nat z)%nat = a *+ (i == j).
Proof.
move=> z0 /in_segP Hi /in_segP Hj.
have Li : (i - Z.to_nat z < 3)%nat by apply/ltP; rewrite /subn /subn_rec; lia.
have Lj : (j - Z.to_nat z < 3)%nat by apply/ltP; rewrite /subn /subn_rec; lia.
rewrite -[(i - _)%nat]/(val (Ordinal Li)) -[(j - _)%nat]/(val (Ordinal Lj)) mat_at_ord mxE -val_eqE /=.
congr (_ *+ _); congr nat_of_bool; apply/eqP/eqP => [|-> //]; rewrite /subn /subn_rec; lia.
Qed.
Lemma blocks4_ok md (a b c d : R) : blocks4 md 0 3 6 9 a b c d = Ok (diag_mx (row4 a b c d)).
Proof.
rewrite /blocks4 /block_assign /=; congr Ok; apply/matrixP => i j; rewrite !mxE.
have ne : i != j -> (i == j) = false by move/negbTE.
have /ltP := ltn_ord i; have /ltP := ltn_ord j => Lj Li.
case: (in_segP 9 3 i) => Hi9; case: (in_segP 9 3 j) => Hj9 /=; rewrite ?(@at_scal _ 9) //; try (by apply/in_segP).
  by rewrite !in_segF //; lia.
all: case: (in_segP 6 3 i) => Hi6; case: (in_segP 6 3 j) => Hj6 /=; rewrite ?(@at_scal _ 6) //; try (by apply/in_segP); try lia.
all: case: (in_segP 3 3 i) => Hi3; case: (in_segP 3 3 j) => Hj3 /=; rewrite ?(@at_scal _ 3) //; try (by apply/in_segP); try lia.
all: case: (in_segP 0 3 i) => Hi0; case: (in_segP 0 3 j) => Hj0 /=; rewrite ?(@at_scal _ 0) //; try (by apply/in_segP); try lia.
all: by have -> : (i == j) = false by apply/eqP => E; subst; lia.
Qed.
Lemma psd_row4 (a b c d : R) : 0 <= a -> 0 <= b -> 0 <= c -> 0 <= d -> psd (diag_mx (row4 a b c d)).
Proof. by move=> *; apply: psd_diag => i; rewrite mxE; do 3!case: ifP => _ //. Qed.
Definition the_defaults : defaults R := mkDefaults
  (diag_mx (row4 (10%:R ^- 4) (10%:R ^- 4) (10%:R ^- 6) (10%:R ^- 6))) ((10%:R ^- 10)%:M) ((10%:R ^+ 100)%:M) (diag_mx (row4 (10%:R ^- 8) (10%:R ^- 8) (10%:R ^+ 100) (10%:R ^+ 100)))
  (diag_mx (row4 (10%:R ^- 8) (10%:R ^- 8) (10%:R ^- 8) (10%:R ^- 8))) ((10%:R ^- 12)%:M) ((10%:R ^- 8)%:M) (diag_mx (row4 (10%:R ^- 8) (10%:R ^- 8) (10%:R ^+ 100) (10%:R ^+ 100))).
Lemma defaults_ok md : defaults_init R md = Ok the_defaults.
Proof.
rewrite /defaults_init -[posIndexTangent]/0%Z -[oriIndexTangent]/3%Z -[linVelIndexTangent]/6%Z -[angVelIndexTangent]/9%Z.
by rewrite !blocks4_ok.
Qed.
Lemma defaults_good : good_d the_defaults.
Proof.
have H n : 0 <= (10%:R ^- n : R) by rewrite invr_ge0 exprn_ge0 // ler0n.
have H' n : 0 <= (10%:R ^+ n : R) by rewrite exprn_ge0 // ler0n.
by split; (split; [|split; [|split]]); rewrite /the_defaults /=; (try exact: psd_row4); (try exact: psd_scal).
Qed.
End Default.

Section Resets.
Variable R : rcfType.
Notation pair := (comp * {k : nat & 'M[R]_k})%type.
Lemma resets_nil n st (P : 'M[R]_n) : resets st [::] P P.
Proof. by split. Qed.
Lemma resets_ext n st (l l' : list pair) (P P' : 'M[R]_n) : (forall p, List.In p l <-> List.In p l') -> resets st l P P' -> resets st l' P P'.
Proof.
move=> E [H1 H2 H3]; split.
- by move=> p z /E; apply: H1.
- by move=> p z /E; apply: H2.
- by move=> i j H; apply: H3 => p z /E; apply: H.
Qed.
Lemma resets_snoc n (st : comp -> Z -> Prop) (l : list pair) (c : comp) k (B : 'M[R]_k) z (P P1 P2 : 'M[R]_n) :
  (forall c z z', st c z -> st c z' -> z = z') -> resets st l P P1 -> st c z -> isolates z B P1 P2 ->
  (forall p z', List.In p l -> st p.1 z' -> (z' + Z.of_nat (projT1 p.2) <= z \/ z + Z.of_nat k <= z')%Z) ->
  resets st (l ++ [:: (c, existT (fun k => 'M[R]_k) k B)])%list P P2.
Proof.
move=> st1 [H1 H2 H3] Hc [I1 I2 I3] D.
have out p z' (i : 'I_n) : List.In p l -> st p.1 z' -> (z' <= Z.of_nat i < z' + Z.of_nat (projT1 p.2))%Z -> ~ (z <= Z.of_nat i < z + Z.of_nat k)%Z.
  by move=> Hp Hz Hi; have := D _ _ Hp Hz; lia.
split.
- move=> p z' /in_app_iff[Hp|[<-|[]]] Hz i j a b Ei Ej; last by move: Hz Ei Ej => /= /(st1 _ _ _ Hc) <- Ei Ej; exact: I1.
  have La : (Z.of_nat a < Z.of_nat (projT1 p.2))%Z by apply/inj_lt/ltP.
  have Lb : (Z.of_nat b < Z.of_nat (projT1 p.2))%Z by apply/inj_lt/ltP.
  by rewrite I3 ?(H1 _ _ Hp Hz _ _ _ _ Ei Ej) //; apply: (out _ _ _ Hp Hz); lia.
- move=> p z' /in_app_iff[Hp|[<-|[]]] Hz i j Hi Hj; last by move: Hz Hi Hj => /= /(st1 _ _ _ Hc) <- Hi Hj; exact: I2.
  have Oi := out _ _ _ Hp Hz Hi; case: (in_segP z (Z.of_nat k) j) => Hj'; first by have [A B'] := I2 _ _ Hj' Oi.
  by rewrite !I3 //; apply: (H2 _ _ Hp Hz).
- move=> i j H.
  have Hin : List.In (c, existT (fun k => 'M[R]_k) k B) (l ++ [:: (c, existT (fun k => 'M[R]_k) k B)])%list by apply/in_app_iff; right; left.
  have [A B'] := H _ z Hin Hc.
  by rewrite I3 //; apply: H3 => p z' Hp; apply: H; apply/in_app_iff; left.
Qed.
End Resets.

Section Obs.
Variable R : rcfType.
Context {S : Type} (s0 : S) {Kn : Type} (k0 : Kn) (kfirst : mode -> Kn -> outcome Kn) (kupd : mode -> Z -> Kn -> Kn -> outcome Kn).
Context {M : Type} (mzero : M -> bool) {C : Type}.
Notation obs := (obs S Kn M C).
Variables maxC maxI : nat.
Notation nt := (tsize maxC maxI).
Notation kcov := (kcov R S Kn M C nt).
Notation op := (kc_op R S Kn M C nt).
Notation step := (kc_step s0 kfirst kupd mzero).
Notation run := (kc_run s0 kfirst kupd mzero).
Notation pair := (comp * {k : nat & 'M[R]_k})%type.
Notation E k B := (existT (fun x : nat => 'M[R]_x) k B).
Implicit Types (s : kcov) (o : op).

Lemma nt_eq : Z.of_nat nt = (18 + 3 * Z.of_nat maxI + 12 * Z.of_nat maxC)%Z.
Proof. rewrite /tsize tangent_eq /cidxT; lia. Qed.

(** The groups of components that have a covariance block, and their sizes. *)
Definition gsize (c : comp) : nat := match c with CPos | CCPos _ => 12 | CUForce => 6 | _ => 3 end%nat.
Definition is_group (c : comp) : bool := match c with CPos | CGyro _ | CUForce | CCPos _ => true | _ => false end.
Definition gstart (c : comp) : Z := cval true (Z.of_nat maxI) c.
Lemma group_range (u : obs) c : inv maxC maxI u -> is_group c -> comp_exists u c -> (0 <= gstart c)%Z /\ (gstart c + Z.of_nat (gsize c) <= Z.of_nat nt)%Z.
Proof.
move=> Hi; rewrite nt_eq /gstart; case: c => [| | | |i| | |j|j|j|j] //= _ He; rewrite /cidxT; try lia.
- move: He; rewrite (v_maxI _ _ _ Hi); lia.
- have := list_bound _ _ _ _ Hi He; lia.
Qed.
Lemma group_disj (u : obs) c c' : inv maxC maxI u -> is_group c -> is_group c' -> comp_exists u c -> comp_exists u c' -> c <> c' ->
  (gstart c' + Z.of_nat (gsize c') <= gstart c \/ gstart c + Z.of_nat (gsize c) <= gstart c')%Z.
Proof.
move=> Hi; rewrite /gstart; case: c => [| | | |i| | |j|j|j|j] //= _; case: c' => [| | | |i'| | |j'|j'|j'|j'] //= _ He He' Hne; rewrite /cidxT;
  try (move: He; rewrite (v_maxI _ _ _ Hi) => He); try (move: He'; rewrite (v_maxI _ _ _ Hi) => He'); try (have Hb := list_bound _ _ _ _ Hi He); try (have Hb' := list_bound _ _ _ _ Hi He'); try lia.
- have ? : i <> i' by move=> Ei; apply: Hne; rewrite Ei. lia.
- have ? : j <> j' by move=> Ei; apply: Hne; rewrite Ei. lia.
Qed.

Lemma with_MM q (X Y : 'M[R]_nt) s : with_M q Y (with_M q X s) = with_M q Y s.
Proof. by case: q. Qed.
Lemma get_with q (X : 'M[R]_nt) s : get_M q (with_M q X s) = X.
Proof. by case: q. Qed.

Fixpoint true_idx (l : list bool) (i : Z) : list Z := match l with nil => nil | cons b l => if b then i :: true_idx l (i + 1) else true_idx l (i + 1) end.
Lemma true_iff l : forall i j, List.In j (true_idx l i) <-> (i <= j)%Z /\ List.nth_error l (Z.to_nat (j - i)) = Some true.
Proof.
elim: l => [|b l IH] i j /=; first by split=> [//|[_]]; case: (Z.to_nat _).
have [->|Hne] := Z.eq_dec j i.
  rewrite Z.sub_diag /=; case: b => /=; first by split=> [_|_]; [split; [lia|]|left].
  rewrite IH; split=> [[]|[_ [//]]]; lia.
have Hs : (i < j)%Z -> Z.to_nat (j - i) = (Z.to_nat (j - (i + 1))).+1 by lia.
case: b => /=; rewrite IH; split.
- case=> [Ei|[H1 H2]]; first by case: Hne. rewrite Hs; last lia. split=> //; lia.
- case=> H1 H2; right; move: H2; rewrite Hs; last lia. move=> H2; split=> //; lia.
- case=> H1 H2; rewrite Hs; last lia. split=> //; lia.
- case=> H1 H2; move: H2; rewrite Hs; last lia. move=> H2; split=> //; lia.
Qed.
Section Loop.
Variables (md : mode) (u : obs) (Hi : inv maxC maxI u) (Hm : md = Debug -> (0 < maxI)%coq_nat).
Set Default Proof Using "Hi Hm Type".
Notation st := (fun c z => comp_start md true u c = Ok z).
Lemma st_fun : forall c z z', st c z -> st c z' -> z = z'.
Proof. by move=> c z z' /= -> []. Qed.
Lemma st_eq c z : comp_exists u c -> st c z -> z = gstart c.
Proof. by move=> He /=; rewrite (comp_start_ok _ _ _ _ _ _ Hi Hm He) => -[]. Qed.
(** A list of blocks of existing groups. *)
Definition lwf (l : list pair) : Prop := forall p, List.In p l -> [/\ is_group p.1, comp_exists u p.1 & projT1 p.2 = gsize p.1].
Lemma add_group q s l c (B : 'M[R]_(gsize c)) P0 : lwf l -> resets st l P0 (get_M q s) -> is_group c -> comp_exists u c -> (forall p, List.In p l -> p.1 <> c) ->
  exists X, [/\ set_cov md q (gsize c) B (gstart c) s = Ok (with_M q X s), resets st (l ++ [:: (c, E _ B)])%list P0 X & lwf (l ++ [:: (c, E _ B)])%list].
Proof.
move=> Hl Hr Hg He Hn; have [r1 r2] := group_range Hi Hg He.
have [X [E1 I]] := set_cov_ok md q B s r1 r2; exists X; split=> //.
- apply: (resets_snoc st_fun Hr _ I) => [|p z Hp Hz]; first exact: comp_start_ok _ _ _ _ _ _ Hi Hm He.
  have [a b ->] := Hl _ Hp; rewrite (st_eq b Hz); apply: (group_disj Hi) => //; exact/nesym/Hn.
- by move=> p /in_app_iff[/Hl|[<-|[]]].
Qed.
Lemma each_ok q (f : Z -> kcov -> outcome kcov) (g : Z -> comp) k (B : 'M[R]_k) P0 (s : kcov) (conds : list bool) :
  (forall a b, g a = g b -> a = b) ->
  (forall i, is_group (g i) /\ gsize (g i) = k) ->
  (forall i, (0 <= i)%Z -> List.nth_error conds (Z.to_nat i) = Some true -> comp_exists u (g i) /\ forall X, f i (with_M q X s) = set_cov md q k B (gstart (g i)) (with_M q X s)) ->
  forall l, lwf l -> (forall p i, List.In p l -> p.1 <> g i) -> resets st l P0 (get_M q s) ->
  exists X, [/\ for_each f conds 0 s = Ok (with_M q X s), resets st (l ++ map (fun i => (g i, E k B)) (true_idx conds 0))%list P0 X
     & lwf (l ++ map (fun i => (g i, E k B)) (true_idx conds 0))%list].
Proof.
move=> ginj gg Hf l Hl Hn Hr.
have main : forall cs i l s', (0 <= i)%Z -> (forall j, (0 <= j)%Z -> List.nth_error cs (Z.to_nat j) = Some true -> List.nth_error conds (Z.to_nat (i + j)) = Some true) ->
    (exists X, s' = with_M q X s) -> lwf l -> (forall p j, List.In p l -> (i <= j)%Z -> p.1 <> g j) -> resets st l P0 (get_M q s') ->
    exists X, [/\ for_each f cs i s' = Ok (with_M q X s), resets st (l ++ map (fun i => (g i, E k B)) (true_idx cs i))%list P0 X
     & lwf (l ++ map (fun i => (g i, E k B)) (true_idx cs i))%list].
  elim=> [|b cs IH] i {Hl Hn Hr}l s' i0 Hcs [X ->] Hl Hn Hr /=.
    by exists X; rewrite app_nil_r; split=> //; rewrite get_with in Hr.
  have Hcs' : forall j, (0 <= j)%Z -> List.nth_error cs (Z.to_nat j) = Some true -> List.nth_error conds (Z.to_nat (i + 1 + j)) = Some true.
    move=> j j0 Hj; have -> : (i + 1 + j = i + (j + 1))%Z by lia. apply: Hcs; first lia.
    by have -> : Z.to_nat (j + 1) = (Z.to_nat j).+1 by lia.
  case: b Hcs => Hcs /=.
  - have [He Ef] : comp_exists u (g i) /\ forall X, f i (with_M q X s) = set_cov md q k B (gstart (g i)) (with_M q X s).
      by apply: Hf => //; have := Hcs 0%Z (Z.le_refl 0) erefl; rewrite Z.add_0_r.
    rewrite Ef; have [Hg Hk] := gg i.
    have [Y [E1 E2 E3]] : exists Y, [/\ set_cov md q k B (gstart (g i)) (with_M q X s) = Ok (with_M q Y (with_M q X s)), resets st (l ++ [:: (g i, E k B)])%list P0 Y & lwf (l ++ [:: (g i, E k B)])%list].
      move: (B) (f) => B'; rewrite -Hk in B' * => _; apply: add_group => // p Hp; apply: Hn => //; lia.
    rewrite E1 /= with_MM.
    have [||||||Y' [F1 F2 F3]] := IH (i + 1)%Z (l ++ [:: (g i, E k B)])%list (with_M q Y s).
    + lia.
    + exact: Hcs'.
    + by exists Y.
    + exact: E3.
    + by move=> p j /in_app_iff[Hp Hj|[<-|[]] Hj]; [apply: Hn => //; lia|move=> /ginj; lia].
    + by rewrite get_with.
    exists Y'; split=> //.
    + by move: F2; rewrite -app_assoc.
    + by move: F3; rewrite -app_assoc.
  - apply: IH => //; [lia|by exists X|move=> p j Hp Hj; apply: Hn => //; lia].
apply: main => //; [by exists (get_M q s); case: (q); case: (s)|by move=> p j Hp _; apply: Hn].
Qed.
End Loop.
Set Default Proof Using "Type".

(** ** Whole resets *)
Lemma obs_with q (X : 'M[R]_nt) s : kc_obs (with_M q X s) = kc_obs s.
Proof. by case: q. Qed.
Lemma d_with q (X : 'M[R]_nt) s : kc_d (with_M q X s) = kc_d s.
Proof. by case: q. Qed.
Lemma get_other q (X : 'M[R]_nt) s : get_M (~~ q) (with_M q X s) = get_M (~~ q) s.
Proof. by case: q. Qed.
Lemma map_in (A B : Type) (f : A -> B) l y : List.In y (map f l) <-> exists x, f x = y /\ List.In x l.
Proof. exact: (in_map_iff f l y). Qed.
Lemma nth_map_true (A : Type) (f : A -> bool) l n : List.nth_error (List.map f l) n = Some true <-> exists x, List.nth_error l n = Some x /\ f x = true.
Proof.
rewrite nth_error_map; case: (List.nth_error l n) => [x|] /=; last by split=> // -[x []].
by split=> [[E1]|[y [[<-] ->]]] //; exists x.
Qed.
Lemma gyro_start md i (u : obs) : (0 <= i < o_maxI u)%Z -> gyroBiasIndexTangent md (o_maxI u) i = Ok (gstart (CGyro i)).
Proof. by move=> Hi; case: (gyro_idx md (o_maxI u) i _) => //; lia. Qed.
Lemma unm_start md (u : obs) : inv maxC maxI u -> (md = Debug -> (0 < maxI)%coq_nat) -> unmodeledForceIndexTangent md (o_maxI u) = Ok (gstart CUForce).
Proof. by move=> Hi Hm; exact: (comp_start_ok md true _ _ u CUForce Hi Hm I). Qed.

Lemma reset_all_ok md q s : inv maxC maxI (kc_obs s) -> (md = Debug -> (0 < maxI)%coq_nat) ->
  exists X, (if q then kc_resetProcessCovarianceMat md s else kc_resetStateCovarianceMat md s) = Ok (with_M q X s) /\
    resets (fun c z => comp_start md true (kc_obs s) c = Ok z) (groups (if q then zseq maxI else current_imus (kc_obs s)) q (kc_d s) (kc_obs s)) (get_M q s) X.
Proof.
move=> Hi Hm; pose u := kc_obs s; pose st := fun c z => comp_start md true u c = Ok z.
have [X1 [E1 R1 W1]] : exists X, [/\ set_cov md q 12 (if q then q_kine (kc_d s) else d_kine (kc_d s)) 0 s = Ok (with_M q X s),
    resets st [:: (CPos, E _ (if q then q_kine (kc_d s) else d_kine (kc_d s)))] (get_M q s) X & lwf u [:: (CPos, E _ (if q then q_kine (kc_d s) else d_kine (kc_d s)))]].
  have := @add_group md u Hi Hm q s [::] CPos (if q then q_kine (kc_d s) else d_kine (kc_d s)) (get_M q s); apply=> //; exact: resets_nil.
pose conds := if q then List.map (fun _ => true) (o_imus u) else List.map (fun i => Z.eqb (i_time i) (o_kdata u)) (o_imus u).
have Hc i : List.nth_error conds (Z.to_nat i) = Some true -> (0 <= i)%Z -> (0 <= i < o_maxI u)%Z.
  move=> H i0; have L : (Z.to_nat i < length (o_imus u))%coq_nat.
    by move: H; rewrite /conds; case: (q) => /nth_map_true[x [Hx _]]; apply/nth_error_Some; rewrite Hx.
  by move: L; rewrite (v_lI _ _ _ Hi) (v_maxI _ _ _ Hi); lia.
pose gy := if q then q_gyro (kc_d s) else d_gyro (kc_d s).
have [X2 [E2 R2 W2]] : exists X, [/\ for_each ((if q then @kc_resetProcessGyroBiasCovMat R S Kn M C nt else @kc_resetStateGyroBiasCovMat R S Kn M C nt) md) conds 0 (with_M q X1 s) = Ok (with_M q X (with_M q X1 s)),
    resets st ([:: (CPos, E _ (if q then q_kine (kc_d s) else d_kine (kc_d s)))] ++ map (fun i => (CGyro i, E 3%nat gy)) (true_idx conds 0))%list (get_M q s) X
    & lwf u ([:: (CPos, E _ (if q then q_kine (kc_d s) else d_kine (kc_d s)))] ++ map (fun i => (CGyro i, E 3%nat gy)) (true_idx conds 0))%list].
  apply: (each_ok Hi Hm) => //.
  - by move=> a b [].
  - move=> i i0 Hn; have Hr := Hc _ Hn i0; split=> // X.
    by rewrite with_MM; have G := gyro_start md Hr; rewrite /gy; case: (q); rewrite /kc_resetProcessGyroBiasCovMat /kc_resetStateGyroBiasCovMat /= G.
  - by move=> p i [<-|[]].
  - by rewrite get_with.
pose un := if q then q_unm (kc_d s) else d_unm (kc_d s).
set l2 := (_ ++ _)%list in R2 W2.
have [X3 [E3 R3 W3]] : exists X, [/\ set_cov md q 6 un (gstart CUForce) (with_M q X2 s) = Ok (with_M q X (with_M q X2 s)),
    resets st (l2 ++ [:: (CUForce, E _ un)])%list (get_M q s) X & lwf u (l2 ++ [:: (CUForce, E _ un)])%list].
  have := @add_group md u Hi Hm q (with_M q X2 s) l2 CUForce un (get_M q s); apply=> //; first by rewrite get_with.
  by move=> p /in_app_iff[[<-|[]]|/map_in[i [<- _]]].
pose co := if q then q_con (kc_d s) else d_con (kc_d s).
set l3 := (l2 ++ _)%list in R3 W3.
have [X4 [E4 R4 W4]] : exists X, [/\ for_each ((if q then @kc_resetProcessContactCovMat R S Kn M C nt else @kc_resetStateContactCovMat R S Kn M C nt) md) (contacts_set u) 0 (with_M q X3 s) = Ok (with_M q X (with_M q X3 s)),
    resets st (l3 ++ map (fun i => (CCPos i, E 12%nat co)) (true_idx (contacts_set u) 0))%list (get_M q s) X
    & lwf u (l3 ++ map (fun i => (CCPos i, E 12%nat co)) (true_idx (contacts_set u) 0))%list].
  apply: (each_ok Hi Hm) => //.
  - by move=> a b [].
  - move=> i i0 /nth_map_true[c [Hn Hs]]; have Hin : List.In i (ko_getListOfContacts u) by apply/list_iff; split=> //; exists c.
    split=> // X; have [Hb [_ G]] := contact_index_ok md _ _ _ _ Hi Hin.
    have Ev := vec_at_ok _ _ _ i0 Hn; rewrite -/u in Ev *.
    have [_ Ec] := v_ci _ _ _ Hi _ _ Hn Hs; rewrite with_MM /co /gstart /cval.
    have L1 : Z.ltb i (Z.of_nat maxC) = true by apply/Z.ltb_lt; lia.
    case: (q); rewrite /kc_resetProcessContactCovMat /kc_resetStateContactCovMat /= -/u ?(v_maxC _ _ _ Hi) ?(v_lC _ _ _ Hi) L1 Ev /= Hs /= Ec Z2Nat.id //.
  - by move=> p i /in_app_iff[/in_app_iff[[<-|[]]|/map_in[j [<- _]]]|[<-|[]]].
  - by rewrite get_with.
exists X4; split.
- rewrite with_MM in E2; rewrite with_MM in E3; rewrite with_MM in E4.
  clear R1 R2 R3 R4 W1 W2 W3 W4 l2 l3; move: E1 E2 E3 E4; rewrite /conds /un /u {Hc conds gy un co st u}; case: q X1 X2 X3 X4 => X1 X2 X3 X4 E1 E2 E3 E4.
  + rewrite /kc_resetProcessCovarianceMat /kc_resetProcessKinematicsCovMat E1 /=; have -> /= := E2.
    by rewrite /kc_resetProcessUnmodeledWrenchCovMat /= (unm_start Hi Hm) /= E3 /= -E4.
  + rewrite /kc_resetStateCovarianceMat /kc_resetStateKinematicsCovMat E1 /=; have -> /= := E2.
    by rewrite /kc_resetStateUnmodeledWrenchCovMat /= (unm_start Hi Hm) /= E3 /= -E4.
- have EI i : List.In i (true_idx conds 0) <-> List.In i (if q then zseq maxI else current_imus u).
    have Z0 : List.In i (zseq maxI) <-> (0 <= i < Z.of_nat maxI)%Z.
      split=> [/in_map_iff[n [<- /in_seq]]|H]; first lia.
      by apply/in_map_iff; exists (Z.to_nat i); split; [lia|apply/in_seq; lia].
    have LI := v_lI _ _ _ Hi; rewrite -/u in LI.
    rewrite true_iff Z.sub_0_r /conds; case: (q).
    + rewrite Z0 nth_map_true; split=> [[i0 [x [Hx _]]]|[i0 i1]].
        by have : (Z.to_nat i < length (o_imus u))%coq_nat; [apply/nth_error_Some; rewrite Hx|rewrite LI; lia].
      have : List.nth_error (o_imus u) (Z.to_nat i) <> None by apply/nth_error_Some; rewrite LI; lia.
      by case EN: (List.nth_error _ _) => [x|] // _; split=> //; exists x.
    + rewrite nth_map_true /current_imus LI filter_In Z0; split=> [[i0 [x [Hx Ex]]]|[[i0 i1]]].
        rewrite Hx Ex; split=> //; split=> //.
        by have : (Z.to_nat i < length (o_imus u))%coq_nat; [apply/nth_error_Some; rewrite Hx|rewrite LI; lia].
      by case EN: (List.nth_error _ _) => [x|] // Ex; split=> //; exists x.
  have EC i : List.In i (true_idx (contacts_set u) 0) <-> List.In i (ko_getListOfContacts u).
    by rewrite true_iff Z.sub_0_r list_iff /contacts_set nth_map_true.
  apply: resets_ext R4 => p; rewrite /l3 /l2 /groups -/un -/gy -/co !in_app_iff /= in_app_iff !map_in /= !map_in -/u; split.
  + case=> [[[[<-|[]]|[i [<- /EI Hx]]]|[<-|[]]]|[i [<- /EC Hx]]]; [by left|right; left; by exists i|by right; right; left|right; right; right; by exists i].
  + case=> [<-|[[i [<- /EI Hx]]|[<-|[i [<- /EC Hx]]]]]; [by left; left; left; left|left; left; right; by exists i|by left; right; left|right; by exists i].
Qed.

Lemma seg_ex (A : Type) md i (w v : list A) : (0 <= i)%Z -> (i + Z.of_nat (length w) <= Z.of_nat (length v))%Z -> exists x, seg_set md i w v = Ok x.
Proof. by move=> i0 i1; rewrite (seg_set_ok md i w v i0 i1); eexists. Qed.
(** ** Single blocks *)
Lemma target_ok md s o q c p : inv maxC maxI (kc_obs s) -> (md = Debug -> (0 < maxI)%coq_nat) ->
  target (kc_d s) o = Some (q, c, p) -> comp_exists (kc_obs s) c -> projT1 p = gsize c -> (match o with CSetKine kv _ => length kv = 13%nat | _ => True end) ->
  exists z s', [/\ comp_start md true (kc_obs s) c = Ok z, step md o s = Ok s', isolates z (projT2 p) (get_M q s) (get_M q s') & get_M (~~ q) s' = get_M (~~ q) s].
Proof.
move=> Hi Hm Ht He Ek Hw.
have key s1 : is_group c -> (forall q, get_M q s1 = get_M q s) -> set_cov md q (gsize c) (projT2 p) (gstart c) s1 = step md o s ->
    exists z s', [/\ comp_start md true (kc_obs s) c = Ok z, step md o s = Ok s', isolates z (projT2 p) (get_M q s) (get_M q s') & get_M (~~ q) s' = get_M (~~ q) s].
  move=> Hg Hs1; have [r1 r2] := group_range Hi Hg He; case: p Ek {Ht} => k B /= Ek; subst k; have [X [E1 H]] := set_cov_ok md q B s1 r1 r2.
  rewrite E1 => <-; exists (gstart c), (with_M q X s1); split=> //; first exact: (comp_start_ok md true _ _ _ _ Hi Hm He).
  - by rewrite get_with -Hs1.
  - by rewrite get_other Hs1.
have rc n : c = CCPos n -> ko_contactIndexTangent md n (kc_obs s) = Ok (gstart (CCPos n)).
  by move=> Ec; rewrite Ec in He; case: (contact_index_ok md _ _ _ _ Hi He) => _ [].
have rc2 n : c = CCPos n -> exists x, [/\ vec_at n (o_contacts (kc_obs s)) = Ok x, c_set x, c_tidx x = gstart (CCPos n) & Z.ltb n (Z.of_nat maxC) = true].
  move=> Ec; rewrite Ec in He; have Hb := list_bound _ _ _ _ Hi He; move/list_iff: He => [n0 [x [Hx Hs]]]; exists x; split=> //.
  - exact: vec_at_ok.
  - by have [_ ->] := v_ci _ _ _ Hi _ _ Hx Hs; rewrite Z2Nat.id.
  - by apply/Z.ltb_lt; lia.
case: o Ht Hw key => // [m B|q' B i|q' B|q' n B|q'|q' i|q'|q' n|kv [] //] [<- Ec Ep] Hw key; subst p c; rewrite /= in Ek.
- by apply: (key s).
- by apply: (key s) => //=; case: q' key => _; rewrite /kc_setGyroBiasProcessCovariance /kc_setGyroBiasStateCovariance (gyro_start md He).
- by apply: (key s) => //=; case: q' key => _; rewrite /kc_setUnmodeledWrenchProcessCovMat /kc_setUnmodeledWrenchStateCovMat -/(unmodeledForceIndexTangent _ _) (unm_start Hi Hm).
- by apply: (key s) => //=; case: q' key => _; rewrite /kc_setContactProcessCovMat /kc_setContactStateCovMat rc.
- by apply: (key s) => //=; case: q' key.
- by apply: (key s) => //=; case: q' key => _; rewrite /kc_resetProcessGyroBiasCovMat /kc_resetStateGyroBiasCovMat (gyro_start md He).
- by apply: (key s) => //=; case: q' key => _; rewrite /kc_resetProcessUnmodeledWrenchCovMat /kc_resetStateUnmodeledWrenchCovMat (unm_start Hi Hm).
- have [x [E1 E2 E3 E4]] := rc2 _ erefl; apply: (key s) => //=; case: q' key => _.
  + by rewrite /kc_resetProcessContactCovMat (v_maxC _ _ _ Hi) E4 /= E1 /= E2 /= E3.
  + by rewrite /kc_resetStateContactCovMat (v_lC _ _ _ Hi) E4 /= E1 /= E2 /= E3.
- have [x Ex] : exists x, seg_set md kineIndex kv (o_state (kc_obs s)) = Ok x.
    apply: seg_ex => //; rewrite Hw (v_x _ _ _ Hi) nx_eq /cidx /kineIndex; lia.
  have Eo : ko_setStateKinematics s0 md kv false (kc_obs s) = Ok (set_state x x (kc_obs s)) by rewrite /ko_setStateKinematics Ex.
  apply: (key (with_obs (set_state x x (kc_obs s)) s)) => //=.
  by rewrite /kc_setStateKinematics Eo /=; case: (set_cov _ _ _ _ _ _).
Qed.
Lemma add_cov_ok md s pv num st (B Qc : 'M[R]_12) n s' : inv maxC maxI (kc_obs s) -> kc_addContact s0 mzero md pv num st B Qc s = Ok (n, s') -> length pv = 7%nat ->
  exists z, [/\ comp_start md true (kc_obs s') (CCPos n) = Ok z, isolates z B (kc_P s) (kc_P s') & isolates z Qc (kc_Q s) (kc_Q s')].
Proof.
move=> Hi E HL; have [r [E1 E2]] := obind_Ok_inv _ _ _ E; case: r E1 E2 => n1 o1 E1 E2.
have Hi1 : inv maxC maxI o1.
  apply: (step_inv s0 (fun _ k => Ok k) (fun _ _ k _ => Ok k) mzero md _ _ (KAdd pv num st) (kc_obs s)) => //=; by rewrite E1.
have [c [E3 E4]] := obind_Ok_inv _ _ _ E2; have [s1 [E5 E6]] := obind_Ok_inv _ _ _ E4; have [s2 [E7 E8]] := obind_Ok_inv _ _ _ E6; case: E8 => <- <-.
have [X [Es1 _ _ _ I1]] := set_cov_inv E5; have [Y [Es2 _ _ _ I2]] := set_cov_inv E7; subst s2 s1; rewrite /= in I1 I2 *.
have [n0 Hc] := vec_at_inv _ _ _ E3.
have Hs : c_set c = true.
  have [m [c1 [x [_ [_ [_ [n00 [Ec [_ [_ Eo]]]]]]]]]] := add_inv _ _ _ _ _ _ _ _ _ E1; subst o1; move: Hc; rewrite /= vec_set_nth.
  by rewrite Nat.eqb_refl Ec => -[<-]; rewrite /added; case: (st) => [[[? ?] ?] ?]; case: (o_dstiff _) => [[[? ?] ?] ?].
exists (c_tidx c); split=> //; rewrite /= /ko_contactPosIndexTangent.
have Hin : List.In n1 (ko_getListOfContacts o1) by apply/list_iff; split=> //; exists c.
have [_ [_ ->]] := contact_index_ok md _ _ _ _ Hi1 Hin; by have [_ ->] := v_ci _ _ _ Hi1 _ _ Hc Hs; rewrite Z2Nat.id.
Qed.

(** ** Wrong blocks *)
(** setGyroBias with resetCovariance: the block written is one index too far. *)
Lemma bias_shift md s b i s' : inv maxC maxI (kc_obs s) -> (0 <= i)%Z -> (i < Z.of_nat maxI)%Z -> length b = 3%nat -> kc_setGyroBias md b i s = Ok s' ->
  exists z, comp_start md true (kc_obs s) (CGyro i) = Ok z /\ isolates (z + 1) (d_gyro (kc_d s)) (kc_P s) (kc_P s').
Proof.
move=> Hi i0 i1 HL E; have [o1 [E1 E2]] := obind_Ok_inv _ _ _ E; have [z [E3 E4]] := obind_Ok_inv _ _ _ E2.
have [X [-> _ _ _ H]] := set_cov_inv E4; exists (12 + 3 * i)%Z.
have Ez : z = (12 + 3 * i + 1)%Z by have := gyro_idx_inv _ _ _ _ E3; lia.
by rewrite Ez in H; split=> //=; case: (gyro_idx md (o_maxI (kc_obs s)) i _) => //; rewrite (v_maxI _ _ _ Hi).
Qed.
Lemma wrench_shift md s w s' : inv maxC maxI (kc_obs s) -> (md = Debug -> (0 < maxI)%coq_nat) -> kc_setStateUnmodeledWrench md w s = Ok s' ->
  exists z, comp_start md true (kc_obs s) CUForce = Ok z /\ isolates (z + 1) (d_unm (kc_d s)) (kc_P s) (kc_P s').
Proof.
move=> Hi Hm E; have [o1 [E1 E2]] := obind_Ok_inv _ _ _ E; have [z [E3 E4]] := obind_Ok_inv _ _ _ E2.
have [X [-> _ _ _ H]] := set_cov_inv E4; exists (gstart CUForce); split; first exact: (comp_start_ok md true _ _ _ CUForce Hi Hm I).
have [g [_ E6]] := obind_Ok_inv _ _ _ E1; have [x [_ E8]] := obind_Ok_inv _ _ _ E6; case: E8 => Eo; subst o1; rewrite /= in E3.
have [g' [E5 E7]] := obind_Ok_inv _ _ _ E3; have Eg := gyro_idx_inv _ _ _ _ E5; case: E7 => Ez.
have -> : (gstart CUForce + 1 = z)%Z; last exact: H.
by rewrite -Ez Eg (v_maxI _ _ _ Hi) /gstart /cval /sizeGyroBias; lia.
Qed.
(** setStateUnmodeledWrench with resetCovariance on an observer without contacts. *)
Lemma wrench_no_contact md s w : inv maxC maxI (kc_obs s) -> (md = Debug -> (0 < maxI)%coq_nat) -> maxC = 0%nat -> length w = 6%nat ->
  kc_setStateUnmodeledWrench md w s = eigen_fail _ md.
Proof.
move=> Hi Hm H0 HL.
have Ew : unmodeledWrenchIndex md (o_maxI (kc_obs s)) = Ok (13 + 3 * Z.of_nat maxI)%Z := comp_start_ok md false _ _ _ CUForce Hi Hm I.
have [x Ex] : exists x, seg_set md (13 + 3 * Z.of_nat maxI) w (o_state (kc_obs s)) = Ok x.
  apply: seg_ex; [lia|rewrite HL (v_x _ _ _ Hi) nx_eq /cidx; lia].
rewrite /kc_setStateUnmodeledWrench /ko_setStateUnmodeledWrench Ew /= Ex /= Ew /= set_cov_bad //; right.
by rewrite nt_eq H0; rewrite -[Z.of_nat (Pos.to_nat 6)]/6%Z; lia.
Qed.
(** setStateKinematics resetting forces and covariance, with a contact. *)
Lemma kine_reset_forces md s kv n : inv maxC maxI (kc_obs s) -> List.In n (ko_getListOfContacts (kc_obs s)) -> length kv = 13%nat ->
  kc_setStateKinematics s0 md kv true s = eigen_fail _ md.
Proof.
move=> Hi Hn HL.
have Hz : forall (cs : list (contact S Kn M C)) (x : list S), (forall c, List.In c cs -> c_set c = true -> (0 < c_sidx c)%Z /\ (c_sidx c + 13 <= Z.of_nat (length x))%Z) -> exists x', zero_wrenches s0 md cs x = Ok x' /\ length x' = length x.
  elim=> [|c cs IH] x Hx /=; first by exists x.
  case Ec: (c_set c) => /=; last by apply: IH => c' Hc'; apply: Hx; right.
  have [p1 p2] := Hx _ (or_introl erefl) Ec; have -> /= : Z.ltb 0 (c_sidx c) = true by apply/Z.ltb_lt.
  have [y Ey] : exists y, seg_set md (c_sidx c + sizeContactKine) (repeat s0 6) x = Ok y.
    by apply: seg_ex; rewrite ?repeat_length -[sizeContactKine]/7%Z; lia.
  rewrite Ey /=; have Ly := seg_set_length _ _ _ _ _ Ey.
  by have [|x' [-> Lx]] := IH y; [move=> c' Hc'; rewrite Ly; apply: Hx; right|exists x'; rewrite Lx].
have Hci c : List.In c (o_contacts (kc_obs s)) -> c_set c = true -> (0 < c_sidx c)%Z /\ (c_sidx c + 13 <= Z.of_nat (nx maxC maxI))%Z.
  move=> Hc Hs; have [j Hj] := In_nth_error _ _ Hc; have [-> _] := v_ci _ _ _ Hi _ _ Hj Hs.
  have : (j < length (o_contacts (kc_obs s)))%coq_nat by apply/nth_error_Some; rewrite Hj.
  by rewrite (v_lC _ _ _ Hi) nx_eq /cidx; lia.
have [x Ex] : exists x, seg_set md kineIndex kv (o_state (kc_obs s)) = Ok x.
  by apply: seg_ex => //; rewrite HL (v_x _ _ _ Hi) nx_eq /cidx /kineIndex; lia.
have Lx := seg_set_length _ _ _ _ _ Ex.
have [|x' [Ex' Lx']] := Hz (o_contacts (kc_obs s)) x; first by move=> c; rewrite Lx (v_x _ _ _ Hi); exact: Hci.
rewrite /kc_setStateKinematics /ko_setStateKinematics Ex /= Ex' /=.
have r2 : (0 + Z.of_nat 12 <= Z.of_nat nt)%Z by rewrite nt_eq; lia.
have [X [-> _]] := set_cov_ok md false (d_kine (kc_d s)) (with_obs (set_state x' x' (kc_obs s)) s) (Z.le_refl 0) r2.
move=> /=; move/list_iff: Hn => [_ [c0 [Hc0' Hs0]]]; have Hc0 := nth_error_In _ _ Hc0'.
move: (with_P _ _) => s1; elim: (o_contacts (kc_obs s)) Hc0 Hci s1 {Ex Ex' Hc0'} => [//|c cs IH] Hc0 Hci s1 /=.
case Ec: (c_set c) => /=.
  have [p1 _] := Hci _ (or_introl erefl) Ec; have -> /= : Z.ltb 0 (c_sidx c) = true by apply/Z.ltb_lt.
  by rewrite set_cov_bad; [case: (md)|left].
apply: IH => [|c' Hc']; last by apply: Hci; right.
by case: Hc0 => [E0|//]; move: Hs0; rewrite -E0 Ec.
Qed.
End Obs.

Section Reach.
Variable R : rcfType.
Context {S : Type} (s0 : S) {Kn : Type} (k0 : Kn) (kfirst : mode -> Kn -> outcome Kn) (kupd : mode -> Z -> Kn -> Kn -> outcome Kn).
Context {M : Type} (mzero : M -> bool) {C : Type}.
Variables maxC maxI : nat.
Notation nt := (tsize maxC maxI).
Notation kcov := (kcov R S Kn M C nt).
Notation op := (kc_op R S Kn M C nt).
Notation run := (kc_run s0 kfirst kupd mzero).
Implicit Types (s : kcov).

Lemma init_ext md ds di dw dp s : kc_init R s0 k0 md maxC maxI ds di dw dp = Ok s ->
  [/\ ko_init s0 k0 md maxC maxI ds di dw dp = Ok (kc_obs s), kc_d s = the_defaults R & good s].
Proof.
move=> E; have [o [E1 E2]] := obind_Ok_inv _ _ _ E; have [d [E3 E4]] := obind_Ok_inv _ _ _ E2; have [s1 [E5 E6]] := obind_Ok_inv _ _ _ E4.
rewrite defaults_ok in E3; case: E3 => Ed; subst d.
have [A1 A2 A3] := ext_trans (ext_rall E5) (ext_pall E6); rewrite A1 A2; split=> //.
by apply: A3; split=> /=; [exact: psd0|exact: psd0|exact: defaults_good].
Qed.
Lemma init_mats md ds di dw dp o : ko_init s0 k0 md maxC maxI ds di dw dp = Ok o ->
  exists s, [/\ kc_init R s0 k0 md maxC maxI ds di dw dp = Ok s, kc_obs s = o,
    resets (fun c z => comp_start md true o c = Ok z) (groups (zseq maxI) false (the_defaults R) o) 0 (kc_P s) &
    resets (fun c z => comp_start md true o c = Ok z) (groups (zseq maxI) true (the_defaults R) o) 0 (kc_Q s)].
Proof.
move=> E; have Hi := init_inv _ _ _ _ _ _ _ _ _ _ E; have Hm : md = Debug -> (0 < maxI)%coq_nat by move=> Em; subst md; apply: init_debug E.
rewrite /kc_init E defaults_ok; cbn [obind].
have [X [-> RX]] := @reset_all_ok R S Kn M C maxC maxI md false (mkKC o 0 0 (the_defaults R)) Hi Hm; cbn [obind].
have [Y [-> RY]] := @reset_all_ok R S Kn M C maxC maxI md true (with_M false X (mkKC o 0 0 (the_defaults R))) Hi Hm.
eexists; split; first reflexivity; rewrite //=.
rewrite /= in RX; have -> // : zseq maxI = current_imus o.
rewrite /current_imus (v_lI _ _ _ Hi).
have H l : (forall i, List.In i l -> (0 <= i < Z.of_nat maxI)%Z) -> List.filter (fun i => match List.nth_error (o_imus o) (Z.to_nat i) with Some u => Z.eqb (i_time u) (o_kdata o) | None => false end) l = l.
  elim: l => [//|i l IH] Hl /=; rewrite IH => [|j Hj]; last by apply: Hl; right.
  have Hb := Hl _ (or_introl erefl).
  have : List.nth_error (o_imus o) (Z.to_nat i) <> None by apply/nth_error_Some; rewrite (v_lI _ _ _ Hi); lia.
  case EN: (List.nth_error _ _) => [u|] // _; suff -> : Z.eqb (i_time u) (o_kdata o) by [].
  have [_ [_ Eo]] := obind_Ok_inv _ _ _ E; case: Eo EN => <- /= EN; by rewrite (nth_repeat _ _ _ _ EN).
rewrite H // => i /in_map_iff[n [<- /in_seq]]; lia.
Qed.
Lemma reach md ds di dw dp s (h : list op) s' : kc_init R s0 k0 md maxC maxI ds di dw dp = Ok s -> forallb (@no_clear S Kn M C) (obs_ops h) -> Forall (wf_op (nx maxC maxI)) (obs_ops h) -> run md h s = Ok s' ->
  [/\ inv maxC maxI (kc_obs s'), (md = Debug -> (0 < maxI)%coq_nat) & (Forall (@psd_op R S Kn M C nt) h -> good s')].
Proof.
move=> E0 Hn Hw E; have [Ei _ G] := init_ext E0; have [E1 H] := run_ext E; split.
- exact: (run_inv _ _ _ _ _ _ _ _ _ _ Hn Hw (init_inv _ _ _ _ _ _ _ _ _ _ Ei) E1).
- by move=> Em; subst md; apply: init_debug Ei.
- by move=> Hp; apply: H.
Qed.

(** The bookkeeping decides whether its calls succeed. *)
Lemma cop_ok md (o : ko_op S Kn M C) f s o' : inv maxC maxI (kc_obs s) -> no_clear o -> wf_op (nx maxC maxI) o ->
  ko_step s0 kfirst kupd mzero md o (kc_obs s) = Ok o' -> exists s', kc_step s0 kfirst kupd mzero md (COp o f) s = Ok s' /\ kc_obs s' = o'.
Proof.
move=> Hi Hn Hw E; case: o Hn Hw E; try (by move=> *; match goal with E : ko_step _ _ _ _ _ _ _ = Ok _ |- _ => rewrite [kc_step _ _ _ _ _ _ _]/(obind (ko_step _ _ _ _ _ _ _) _) E /=; eexists; split; reflexivity end); last first.
  by move=> e _ _ /= E; rewrite E /=; eexists; split; reflexivity.
move=> pv num st _ /= HL E; have [r [E1 E2]] := obind_Ok_inv _ _ _ E; case: r E1 E2 => n o1 E1 [Eo]; rewrite /= in Eo; subst o'.
have Hi1 : inv maxC maxI o1.
  by apply: (step_inv s0 (fun _ k => Ok k) (fun _ _ k _ => Ok k) mzero md _ _ (KAdd pv num st) (kc_obs s)) => //=; rewrite E1.
rewrite /kc_addContact E1; cbn [obind].
have [m [c1 [x [_ [_ [_ [n00 [Ec [_ [_ Eo]]]]]]]]]] := add_inv _ _ _ _ _ _ _ _ _ E1.
have [c [Hc Hs]] : exists c, List.nth_error (o_contacts o1) (Z.to_nat n) = Some c /\ c_set c = true.
  rewrite Eo /= vec_set_nth Nat.eqb_refl Ec; eexists; split; first reflexivity.
  by rewrite /added; case: (st) => [[[? ?] ?] ?]; case: (o_dstiff _) => [[[? ?] ?] ?].
rewrite (vec_at_ok _ _ _ n00 Hc); cbn [obind].
have Hin : List.In n (ko_getListOfContacts o1) by apply/list_iff; split=> //; exists c.
have [r1 r2] := @group_range S Kn M C maxC maxI o1 (CCPos n) Hi1 isT Hin.
have -> : c_tidx c = gstart maxI (CCPos n) by have [_ ->] := v_ci _ _ _ Hi1 _ _ Hc Hs; rewrite Z2Nat.id.
have [X [-> _]] := @set_cov_ok R S Kn M C nt md false 12 (d_con (kc_d s)) _ (with_obs o1 s) r1 r2; cbn [obind].
have [Y [-> _]] := @set_cov_ok R S Kn M C nt md true 12 (q_con (kc_d s)) _ (with_M false X (with_obs o1 s)) r1 r2; cbn [obind].
by eexists; split; reflexivity.
Qed.
Lemma cops_ok md f (h : list (ko_op S Kn M C)) : forall s o', inv maxC maxI (kc_obs s) -> forallb (@no_clear S Kn M C) h -> Forall (wf_op (nx maxC maxI)) h ->
  ko_run s0 kfirst kupd mzero md h (kc_obs s) = Ok o' -> exists s', run md (map (fun o => COp o f) h) s = Ok s' /\ kc_obs s' = o'.
Proof.
elim: h => [|o h IH] s o' Hi Hn Hw E; first by case: E => <-; exists s.
move/andP: Hn => [Hn1 Hn2]; inversion Hw as [|a b Hw1 Hw2]; subst; rewrite /ko_run /= in E; have [o1 [E1 E2]] := obind_Ok_inv _ _ _ E.
have [s1 [E3 E4]] := cop_ok f Hi Hn1 Hw1 E1; rewrite /run /= in E3 *; rewrite E3 /=; subst o1; apply: IH => //.
exact: (step_inv _ _ _ _ _ _ _ _ _ _ Hn1 Hw1 Hi E1).
Qed.

(** No call changes the default process covariance of the contacts. *)
Lemma qcon_step md (o : op) s s' : kc_step s0 kfirst kupd mzero md o s = Ok s' -> q_con (kc_d s') = q_con (kc_d s).
Proof.
have add pv num st (B Qc : 'M[R]_12) r : kc_addContact s0 mzero md pv num st B Qc s = Ok r -> kc_d (snd r) = kc_d s.
  move=> E; have [r0 [E1 E2]] := obind_Ok_inv _ _ _ E; case: r0 E1 E2 => n o1 E1 E2; have [c [_ E4]] := obind_Ok_inv _ _ _ E2.
  have [s1 [E5 E6]] := obind_Ok_inv _ _ _ E4; have [s2 [E7 E8]] := obind_Ok_inv _ _ _ E6; case: E8 => <- /=.
  by case: (set_cov_inv E5) E7 => X1 [-> _ _ _ _] E7; case: (set_cov_inv E7) => X2 [-> _ _ _ _].
have X s1 s2 : ext s1 s2 -> q_con (kc_d s2) = q_con (kc_d s1) by case=> _ -> _.
have setc q k m (B : 'M[R]_m) z s1 s2 : set_cov md q k B z s1 = Ok s2 -> q_con (kc_d s2) = q_con (kc_d s1) by move/set_cov_inv => [Y [-> _ _ _ _]]; case: q.
have idx (z : outcome Z) q k m (B : 'M[R]_m) s1 s2 : (do z <- z; set_cov md q k B z s1) = Ok s2 -> q_con (kc_d s2) = q_con (kc_d s1).
  by move=> E; have [z' [_ E2]] := obind_Ok_inv _ _ _ E; apply: setc E2.
case: o => [o f|pv num st B Q|P|Q|m B|q B i|q B|q n B|B|B|B|B|q|q i|q|q n|q|q|kv b|b i|w|v].
- case: o; try (by move=> *; match goal with E : kc_step _ _ _ _ _ _ _ = Ok _ |- _ => have [y [E1 E2]] := obind_Ok_inv _ _ _ E; case: E2 => <- end).
  by move=> pv num st E; have [r [E1 E2]] := obind_Ok_inv _ _ _ E; case: E2 => <-; rewrite (add _ _ _ _ _ _ E1).
- by move=> E; have [r [E1 E2]] := obind_Ok_inv _ _ _ E; case: E2 => <-; rewrite (add _ _ _ _ _ _ E1).
- by case=> <-.
- by case=> <-.
- exact: setc.
- by case: q => E; apply: idx E.
- by case: q => E; apply: idx E.
- by case: q => E; apply: idx E.
- by case=> <-.
- by case=> <-.
- by case=> <-.
- by case=> <-.
- by case: q => E; apply: setc E.
- by case: q => E; apply: idx E.
- by case: q => E; apply: idx E.
- by case: q => E; apply: X; [exact: ext_pcon E|exact: ext_rcon E].
- by case: q => E; apply: X; [exact: ext_pcons E|exact: ext_rcons E].
- by case: q => E; apply: X; [exact: ext_pall E|exact: ext_rall E].
- move=> E; have [o1 [_ E2]] := obind_Ok_inv _ _ _ E; have [s1 [E3 E4]] := obind_Ok_inv _ _ _ E2; rewrite -[RHS](setc _ _ _ _ _ _ _ E3).
  by case: b E4 {E E2} => [E4|[<-] //]; apply: X; apply: ext_kcons E4.
- by move=> E; have [o1 [_ E2]] := obind_Ok_inv _ _ _ E; rewrite (idx _ _ _ _ _ _ _ E2).
- by move=> E; have [o1 [_ E2]] := obind_Ok_inv _ _ _ E; rewrite (idx _ _ _ _ _ _ _ E2).
- by move=> E; rewrite (X _ _ (ext_rall E)).
Qed.
Lemma qcon_run md (h : list op) : forall s s', run md h s = Ok s' -> q_con (kc_d s') = q_con (kc_d s).
Proof.
elim: h => [|o h IH] s s'; first by case=> <-.
by rewrite /run /= => E; have [s1 [E1 E2]] := obind_Ok_inv _ _ _ E; rewrite (IH _ _ E2); apply: qcon_step E1.
Qed.

(** IMUs that did not report in the current iteration keep their covariance. *)
Lemma imu_kept md s s' n u : inv maxC maxI (kc_obs s) -> (md = Debug -> (0 < maxI)%coq_nat) -> (0 <= n)%Z ->
  List.nth_error (o_imus (kc_obs s)) (Z.to_nat n) = Some u -> i_time u <> o_kdata (kc_obs s) -> kc_resetStateCovarianceMat md s = Ok s' ->
  exists z, comp_start md true (kc_obs s) (CGyro n) = Ok z /\
    forall i j : 'I_nt, (z <= Z.of_nat i < z + 3)%Z -> (z <= Z.of_nat j < z + 3)%Z -> kc_P s' i j = kc_P s i j.
Proof.
move=> Hi Hm n0 Hu Ht E; have [X [E' [_ _ R3]]] := @reset_all_ok R S Kn M C maxC maxI md false s Hi Hm; rewrite E in E'; case: E' => Es; subst s'.
have Hn : comp_exists (kc_obs s) (CGyro n).
  rewrite /= (v_maxI _ _ _ Hi); have : (Z.to_nat n < length (o_imus (kc_obs s)))%coq_nat by apply/nth_error_Some; rewrite Hu.
  by rewrite (v_lI _ _ _ Hi); lia.
exists (gstart maxI (CGyro n)); split; first exact: (comp_start_ok md true _ _ _ _ Hi Hm Hn).
move=> i j Ri Rj; apply: R3 => p z Hp Hz.
have [g1 g2 g3 g4] : [/\ is_group p.1, comp_exists (kc_obs s) p.1, projT1 p.2 = gsize p.1 & p.1 <> CGyro n].
  move: Hp; rewrite /groups /=; case=> [<- //|/in_app_iff[|[<- //|]]].
  - rewrite map_in => -[m [<- /filter_In[Hm1 Hm2]]] /=.
    split=> //=.
      move: Hm1 => /in_map_iff[y [<- /in_seq]]; rewrite (v_lI _ _ _ Hi) (v_maxI _ _ _ Hi); lia.
    by case=> En; subst m; move: Hm2; rewrite Hu => /Z.eqb_eq.
  - by move=> /map_in[m [<- Hm1]] /=.
rewrite (st_eq Hi Hm g2 Hz) g3.
by have := @group_disj S Kn M C maxC maxI (kc_obs s) p.1 (CGyro n) Hi g1 isT g2 Hn g4; rewrite -[gsize (CGyro n)]/3%nat -[Z.of_nat 3]/3%Z; lia.
Qed.

(** The initial covariances. *)
Lemma resets_diag n (st : comp -> Z -> Prop) (l : list (comp * {k : nat & 'M[R]_k})) (P' : 'M[R]_n) (v : nat -> R) : resets st l 0 P' ->
  (forall i : 'I_n, (exists p z, [/\ List.In p l, st p.1 z, (z <= Z.of_nat i < z + Z.of_nat (projT1 p.2))%Z &
     forall (j : 'I_n) (a b : 'I_(projT1 p.2)), Z.of_nat i = (z + Z.of_nat a)%Z -> Z.of_nat j = (z + Z.of_nat b)%Z -> projT2 p.2 a b = v i *+ (i == j)]) \/
    ((forall p z, List.In p l -> st p.1 z -> ~ (z <= Z.of_nat i < z + Z.of_nat (projT1 p.2))%Z) /\ v i = 0)) ->
  forall i j : 'I_n, P' i j = v i *+ (i == j).
Proof.
move=> [H1 H2 H3] H i j.
have ne (a b : 'I_n) (q : 'I_n -> Prop) : q a -> ~ q b -> (a == b) = false by move=> qa qb; apply/eqP => E; apply: qb; rewrite -E.
case: (H i) => [[p [z [Hp Hz Hin Hv]]]|[Hout Hv]].
  have [Hj|Hj] := in_segP z (Z.of_nat (projT1 p.2)) j; last first.
    by rewrite (H2 _ _ Hp Hz _ _ Hin Hj).1 (ne i j (fun i => z <= Z.of_nat i < z + Z.of_nat (projT1 p.2))%Z).
  have La : (Z.to_nat (Z.of_nat i - z) < projT1 p.2)%nat by apply/ltP; lia.
  have Lb : (Z.to_nat (Z.of_nat j - z) < projT1 p.2)%nat by apply/ltP; lia.
  have Ea : Z.of_nat i = (z + Z.of_nat (Ordinal La))%Z by rewrite /=; lia.
  have Eb : Z.of_nat j = (z + Z.of_nat (Ordinal Lb))%Z by rewrite /=; lia.
  by rewrite (H1 _ _ Hp Hz _ _ _ _ Ea Eb) (Hv _ _ _ Ea Eb).
case: (H j) => [[p [z [Hp Hz Hin _]]]|[Hout' _]]; last by rewrite Hv mul0rn H3 ?mxE // => p z Hp Hz; split; [exact: Hout|exact: Hout'].
by rewrite (H2 _ _ Hp Hz _ _ Hin (Hout _ _ Hp Hz)).2 Hv mul0rn.
Qed.
Definition variances (a b c d e f : R) (i : nat) : R :=
  if (i < 3)%nat then a else if (i < 6)%nat then b else if (i < 9)%nat then c else if (i < 12)%nat then d
  else if (i < 12 + 3 * maxI)%nat then e else if (i < 18 + 3 * maxI)%nat then f else 0.
Lemma group_diag q md (o : obs S Kn M C) (d : defaults R) (e f : R) (P' : 'M[R]_nt) a b c dd : inv maxC maxI o -> (md = Debug -> (0 < maxI)%coq_nat) -> ko_getListOfContacts o = nil ->
  (if q then q_kine d else d_kine d) = diag_mx (row4 a b c dd) -> (if q then q_gyro d else d_gyro d) = e%:M -> (if q then q_unm d else d_unm d) = f%:M ->
  resets (fun c z => comp_start md true o c = Ok z) (groups (zseq maxI) q d o) 0 P' -> forall i j : 'I_nt, P' i j = variances a b c dd e f i *+ (i == j).
Proof.
move=> Hi Hm Hc Ek Eg Eu HR; apply: (resets_diag HR) => i; have /ltP Li := ltn_ord i; have Hnt := nt_eq maxC maxI.
have eqo k (j : 'I_nt) (x y : 'I_k) z : Z.of_nat i = (z + Z.of_nat x)%Z -> Z.of_nat j = (z + Z.of_nat y)%Z -> (x == y) = (i == j).
  by move=> E1 E2; apply/eqP/eqP => E; apply: val_inj => /=; [rewrite E in E1; lia|rewrite E in E1; lia].
have ST c' : comp_exists o c' -> comp_start md true o c' = Ok (gstart maxI c') by move=> He; apply: (comp_start_ok md true _ _ _ _ Hi Hm He).
have ltE k : (i < k)%nat = Z.ltb (Z.of_nat i) (Z.of_nat k) by case: Z.ltb_spec => H; apply/ltP; lia.
case: (Z_lt_le_dec (Z.of_nat i) 12) => L12.
  left; eexists; exists 0%Z; split; [by left|by []|rewrite -[projT1 _]/12%nat; lia|].
  move=> j x y Ex Ey; rewrite -[projT2 _]/(if q then q_kine d else d_kine d) Ek mxE (eqo _ _ _ _ _ Ex Ey) !mxE; congr (_ *+ _).
  rewrite /variances !ltE /in_seg /=.
  have -> : (Z.of_nat i) = Z.of_nat x by rewrite Ex; lia.
  have : (Z.of_nat x < 12)%Z by have /ltP := ltn_ord x; rewrite -[projT1 _]/12%nat; lia.
  do !case: Z.leb_spec => //=; do !case: Z.ltb_spec => //=; lia.
have v12 k : (k <= 12)%nat -> (i < k)%nat = false by move=> Hk; rewrite ltE; apply/Z.ltb_ge; move/leP: Hk; lia.
case: (Z_lt_le_dec (Z.of_nat i) (12 + 3 * Z.of_nat maxI)) => Lg.
  left; pose m := ((Z.of_nat i - 12) / 3)%Z; have Hd := Z.div_mod (Z.of_nat i - 12) 3 ltac:(lia); have Hr := Z.mod_pos_bound (Z.of_nat i - 12) 3 ltac:(lia); rewrite -/m in Hd.
  exists (CGyro m, existT (fun k => 'M[R]_k) 3%nat (if q then q_gyro d else d_gyro d)), (12 + 3 * m)%Z; split.
  - right; apply/in_app_iff; left; apply/map_in; exists m; split=> //; apply/in_map_iff; exists (Z.to_nat m); split; [lia|apply/in_seq; lia].
  - by apply: ST => /=; rewrite (v_maxI _ _ _ Hi); lia.
  - rewrite -[projT1 _]/3%nat; lia.
  - move=> j x y Ex Ey; rewrite [projT2 _]/= Eg mxE (eqo _ _ _ _ _ Ex Ey) /variances (v12 3%nat) // (v12 6%nat) // (v12 9%nat) // (v12 12%nat) //.
    by have -> : (i < 12 + 3 * maxI)%nat by apply/ltP; rewrite /muln /muln_rec /addn /addn_rec; lia.
case: (Z_lt_le_dec (Z.of_nat i) (18 + 3 * Z.of_nat maxI)) => Lu.
  left; exists (CUForce, existT (fun k => 'M[R]_k) 6%nat (if q then q_unm d else d_unm d)), (12 + 3 * Z.of_nat maxI)%Z; split.
  - by right; apply/in_app_iff; right; left.
  - by apply: ST.
  - rewrite -[projT1 _]/6%nat; lia.
  - move=> j x y Ex Ey; rewrite [projT2 _]/= Eu mxE (eqo _ _ _ _ _ Ex Ey) /variances (v12 3%nat) // (v12 6%nat) // (v12 9%nat) // (v12 12%nat) //.
    have -> : (i < 12 + 3 * maxI)%nat = false by apply/ltP; rewrite /muln /muln_rec /addn /addn_rec; lia.
    by have -> : (i < 18 + 3 * maxI)%nat by apply/ltP; rewrite /muln /muln_rec /addn /addn_rec; lia.
right; split; last first.
  rewrite /variances (v12 3%nat) // (v12 6%nat) // (v12 9%nat) // (v12 12%nat) //.
  have -> : (i < 12 + 3 * maxI)%nat = false by apply/ltP; rewrite /muln /muln_rec /addn /addn_rec; lia.
  by have -> : (i < 18 + 3 * maxI)%nat = false by apply/ltP; rewrite /muln /muln_rec /addn /addn_rec; lia.
move=> p z; rewrite /groups Hc => -[<-|/in_app_iff[/map_in[m [<- Hin]]|[<-|[]]]] /= Ez.
- case: Ez => <-; rewrite -[posIndexTangent]/0%Z; lia.
- have Hb : (0 <= m < Z.of_nat maxI)%Z by move: Hin => /in_map_iff[y [<- /in_seq]]; lia.
  have := gyro_idxT_inv _ _ _ _ Ez; lia.
- have := ST CUForce I; rewrite /= Ez => -[->]; rewrite /gstart /=; lia.
Qed.
End Reach.
