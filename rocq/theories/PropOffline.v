(** Properties C132-C137: the offline reconstructions. [off_rec] with [jac_fd] is
    imuAttitudeTrajectoryReconstruction, with [jac_analytic] and the identity for [reg] it is
    imuMultiplicativeAttitudeReconstruction; f and h are the functions of the functor. *)
From Coq Require Import ZArith List Lia.
From mathcomp Require Import all_ssreflect all_algebra.
From Verif Require Import Base Defs ZDO MxLib Kalman KFilter EKFProofs EKFDemo EKFJac Offline OfflineProofs.
Set Implicit Arguments.
Unset Strict Implicit.
Unset Printing Implicit Defensive.
Import Order.TTheory GRing.Theory Num.Theory.
Open Scope ring_scope.

(** C132. For every model, every array y of measurements (also empty), every array u of inputs
    that has a value at the index before the first measurement and at every measurement but the
    last one, in both build modes, with Jacobians by finite differences: the reconstruction
    succeeds; the array returned goes from the index before the first measurement to the last
    one; it starts with the initial estimate; every entry is the estimate of the extended Kalman
    filter of the textbooks, with the Kalman gain written with a matrix inverse. *)
Theorem C132_reconstruction_is_the_ekf :
  forall (R : rcfType) (n nt m p : nat) (f : 'cV[R]_n -> 'cV[R]_p -> Z -> 'cV[R]_n)
         (h : 'cV[R]_n -> 'cV[R]_p -> Z -> 'cV[R]_m) ssum sdiff mdiff reg (dx : 'cV[R]_nt)
         md y u (yin : Z -> 'cV[R]_m) (uin : Z -> 'cV[R]_p) xh0 P Q Rm,
  (0 < p)%N -> psd P -> psd Q -> pd Rm ->
  (forall t, Z.le (ia_first y) t -> Z.le t (ia_last y) -> ia_at y t = Ok (yin t)) ->
  (forall t, Z.le (Z.sub (ia_first y) 1) t ->
     Z.lt t (ia_last y) \/ t = Z.sub (ia_first y) 1 -> ia_at u t = Ok (uin t)) ->
  exists xh,
    off_rec f h ssum mdiff (jac_fd f h ssum sdiff dx) reg md y u xh0 P Q Rm = Ok xh /\
    ia_first xh = Z.sub (ia_first y) 1 /\ ia_last xh = ia_last y /\
    ia_at xh (Z.sub (ia_first y) 1) = Ok xh0 /\
    forall j, (j <= length (ia_v y))%N ->
      ia_at xh (Z.add (Z.sub (ia_first y) 1) (Z.of_nat j)) =
      Ok (ref_traj f h ssum mdiff
            (fun x u k => \matrix_(a, b)
               (sdiff (f (ssum x (\col_l if l == b then dx b 0 else 0)) u k) (f x u k) a 0 / dx b 0))
            (fun x u k => \matrix_(a, b)
               ((h (ssum x (\col_l if l == b then dx b 0 else 0)) u k - h x u k) a 0 / dx b 0))
            reg Q Rm yin (fun t => if Z.ltb t (ia_last y) then uin t else 0)
            (Z.sub (ia_first y) 1) (xh0, P) j).1.
Proof.
move=> R n nt m p f h ssum sdiff mdiff reg dx md y u yin uin xh0 P Q Rm p0 pP pQ pR Hy Hu.
eexists; split; first exact: (off_rec_at ssum mdiff reg md xh0 p0 (good_fd f h ssum sdiff p0 dx) pP pQ pR Hy Hu).
split=> //; split.
  by rewrite /ia_last /ia_size [ia_v _]/= List.map_length List.seq_length [ia_k (mkIarr _ _)]/= /ia_first; lia.
have H := fun j => @map_seq_at _ (fun i => (ref_traj f h ssum mdiff (fd_A f ssum sdiff dx) (fd_C h ssum dx)
  reg Q Rm yin (fun t => if Z.ltb t (ia_last y) then uin t else 0) (Z.sub (ia_first y) 1) (xh0, P) i).1)
  (Z.sub (ia_first y) 1) (length (ia_v y)) j.
split; last by move=> j /H.
by have := H 0%N isT; rewrite Z.add_0_r.
Qed.
Print Assumptions C132_reconstruction_is_the_ekf.

(** The same with the Jacobians of the multiplicative functor. *)
Theorem C132_multiplicative_reconstruction_is_the_ekf :
  forall (R : rcfType) (n nt m p : nat) (f : 'cV[R]_n -> 'cV[R]_p -> Z -> 'cV[R]_n)
         (h : 'cV[R]_n -> 'cV[R]_p -> Z -> 'cV[R]_m) ssum mdiff (fA : 'cV[R]_n -> 'M[R]_nt)
         (fC : 'cV[R]_n -> 'M[R]_(m, nt)) md y u (yin : Z -> 'cV[R]_m) (uin : Z -> 'cV[R]_p) xh0 P Q Rm,
  (0 < p)%N -> psd P -> psd Q -> pd Rm ->
  (forall t, Z.le (ia_first y) t -> Z.le t (ia_last y) -> ia_at y t = Ok (yin t)) ->
  (forall t, Z.le (Z.sub (ia_first y) 1) t ->
     Z.lt t (ia_last y) \/ t = Z.sub (ia_first y) 1 -> ia_at u t = Ok (uin t)) ->
  exists xh,
    off_rec f h ssum mdiff (jac_analytic f fA fC) id md y u xh0 P Q Rm = Ok xh /\
    ia_first xh = Z.sub (ia_first y) 1 /\ ia_last xh = ia_last y /\
    ia_at xh (Z.sub (ia_first y) 1) = Ok xh0 /\
    forall j, (j <= length (ia_v y))%N ->
      ia_at xh (Z.add (Z.sub (ia_first y) 1) (Z.of_nat j)) =
      Ok (ref_traj f h ssum mdiff (fun x _ _ => fA x) (fun xb _ _ => fC xb)
            id Q Rm yin (fun t => if Z.ltb t (ia_last y) then uin t else 0)
            (Z.sub (ia_first y) 1) (xh0, P) j).1.
Proof.
move=> R n nt m p f h ssum mdiff fA fC md y u yin uin xh0 P Q Rm p0 pP pQ pR Hy Hu.
eexists; split; first exact: (off_rec_at ssum mdiff id md xh0 p0 (good_analytic f h p0 fA fC) pP pQ pR Hy Hu).
split=> //; split.
  by rewrite /ia_last /ia_size [ia_v _]/= List.map_length List.seq_length [ia_k (mkIarr _ _)]/= /ia_first; lia.
have H := fun j => @map_seq_at _ (fun i => (ref_traj f h ssum mdiff (fun x _ _ => fA x) (fun x _ _ => fC x)
  id Q Rm yin (fun t => if Z.ltb t (ia_last y) then uin t else 0) (Z.sub (ia_first y) 1) (xh0, P) i).1)
  (Z.sub (ia_first y) 1) (length (ia_v y)) j.
split; last by move=> j /H.
by have := H 0%N isT; rewrite Z.add_0_r.
Qed.
Print Assumptions C132_multiplicative_reconstruction_is_the_ekf.

(** The input before the first measurement is necessary: inputs with the indices of the
    measurements are not enough. *)
Theorem C132_initial_input_needed :
  forall (R : rcfType) (n nt m p : nat) (f : 'cV[R]_n -> 'cV[R]_p -> Z -> 'cV[R]_n)
         (h : 'cV[R]_n -> 'cV[R]_p -> Z -> 'cV[R]_m) ssum mdiff (jac : jacfun R n nt m p) reg
         md y (u : iarr 'cV[R]_p) xh0 P Q Rm,
  Z.lt (Z.sub (ia_first y) 1) (ia_first u) ->
  off_rec f h ssum mdiff jac reg md y u xh0 P Q Rm =
  match md with Debug => AssertFail | Release => UB end.
Proof.
move=> R n nt m p f h ssum mdiff jac reg md y u xh0 P Q Rm; rewrite /ia_first => H.
rewrite /off_rec /z_setState /sxn /= Z.eqb_refl /ia_get /ia_checkIndex /ia_at /ia_first.
have -> : Z.leb (ia_k u) (Z.sub (ia_k y) 1) = false by apply/Z.leb_gt.
rewrite andbF; case: md => /=; rewrite Z.ltb_irrefl //=; by case: (Z.ltb _ _).
Qed.
Print Assumptions C132_initial_input_needed.

(** Two measurements at the indices 3 and 4, inputs at 2 and 3. *)
Definition ex_y (R : rcfType) : iarr 'cV[R]_2 := mkIarr 3 [:: 0; const_mx 1].
Definition ex_u (R : rcfType) : iarr 'cV[R]_1 := mkIarr 2 [:: const_mx 1; const_mx 2].
Definition ex_yin (R : rcfType) (t : Z) : 'cV[R]_2 := if Z.eqb t 3 then 0 else const_mx 1.
Definition ex_uin (R : rcfType) (t : Z) : 'cV[R]_1 := if Z.eqb t 2 then const_mx 1 else const_mx 2.
Example C132_example (R : rcfType) : psd (1%:M : 'M[R]_3) /\ pd (1%:M : 'M[R]_2) /\
  (forall t, Z.le (ia_first (ex_y R)) t -> Z.le t (ia_last (ex_y R)) -> ia_at (ex_y R) t = Ok (ex_yin R t)) /\
  (forall t, Z.le (Z.sub (ia_first (ex_y R)) 1) t ->
     Z.lt t (ia_last (ex_y R)) \/ t = Z.sub (ia_first (ex_y R)) 1 -> ia_at (ex_u R) t = Ok (ex_uin R t)).
Proof.
split; first exact: pd_psd (pd1 _ _).
split; first exact: pd1.
rewrite /ia_first /ia_last /ia_size /=; split=> t H1 H2.
  have [->|->] : t = Z.pos 3 \/ t = Z.pos 4 by lia.
    by [].
  by [].
have [->|->] : t = Z.pos 2 \/ t = Z.pos 3 by lia.
  by [].
by [].
Qed.

(** C133. Perfect data: when the measurements and inputs are those of a trajectory of the model
    starting at the initial estimate, the reconstruction returns the trajectory, whatever the
    covariances and the Jacobians. *)
Theorem C133_perfect_data_perfect_reconstruction :
  forall (R : rcfType) (n nt m p : nat) (f : 'cV[R]_n -> 'cV[R]_p -> Z -> 'cV[R]_n)
         (h : 'cV[R]_n -> 'cV[R]_p -> Z -> 'cV[R]_m) ssum sdiff mdiff (jac : jacfun R n nt m p) reg
         md y u (yin : Z -> 'cV[R]_m) (uin : Z -> 'cV[R]_p) (tr : Z -> 'cV[R]_n) P Q Rm,
  (exists dx, jac = jac_fd f h ssum sdiff dx) \/ (exists fA fC, jac = jac_analytic f fA fC) ->
  (0 < p)%N -> psd P -> psd Q -> pd Rm ->
  (forall x, ssum x 0 = x) -> (forall z, mdiff z z = 0) -> (forall t, reg (tr t) = tr t) ->
  (forall x u u' k, h x u k = h x u' k) ->
  (forall t, Z.le (ia_first y) t -> Z.le t (ia_last y) -> ia_at y t = Ok (yin t)) ->
  (forall t, Z.le (Z.sub (ia_first y) 1) t ->
     Z.lt t (ia_last y) \/ t = Z.sub (ia_first y) 1 -> ia_at u t = Ok (uin t)) ->
  (forall t, Z.le (Z.sub (ia_first y) 1) t -> Z.lt t (ia_last y) ->
     tr (nxt t) = f (tr t) (uin t) t /\ yin (nxt t) = h (tr (nxt t)) 0 (nxt t)) ->
  exists xh,
    off_rec f h ssum mdiff jac reg md y u (tr (Z.sub (ia_first y) 1)) P Q Rm = Ok xh /\
    forall t, Z.le (Z.sub (ia_first y) 1) t -> Z.le t (ia_last y) -> ia_at xh t = Ok (tr t).
Proof.
move=> R n nt m p f h ssum sdiff mdiff jac reg md y u yin uin tr P Q Rm Hj p0 pP pQ pR s0 d0 r0 Hh Hy Hu Ht.
have [JA [JC [gj _]]] := two_jacs_good p0 Hj.
eexists; split; first exact: (off_rec_at ssum mdiff reg md _ p0 gj pP pQ pR Hy Hu).
move=> t H1 H2; set k0 := Z.sub (ia_first y) 1 in H1 *.
have El : ia_last y = Z.add k0 (Z.of_nat (length (ia_v y))) by rewrite /ia_last /ia_size /k0 /ia_first; lia.
have Ek : Z.add k0 (Z.of_nat (Z.to_nat (Z.sub t k0))) = t by lia.
have Lk : (Z.to_nat (Z.sub t k0) <= length (ia_v y))%N by apply/ssrnat.leP; lia.
rewrite -[in LHS]Ek map_seq_at //; congr Ok; rewrite -[in RHS]Ek; apply: ref_perfect Lk => //.
- move=> j Hjn; have Lt : Z.lt (Z.add k0 (Z.of_nat j)) (ia_last y) by rewrite El; move/ssrnat.ltP: Hjn; lia.
  rewrite (proj2 (Z.ltb_lt _ _) Lt).
  by have [] := Ht (Z.add k0 (Z.of_nat j)) ltac:(rewrite -/k0; lia) Lt.
move=> j Hjn; have Lt : Z.lt (Z.add k0 (Z.of_nat j)) (ia_last y) by rewrite El; move/ssrnat.ltP: Hjn; lia.
have [_ ->] := Ht (Z.add k0 (Z.of_nat j)) ltac:(rewrite -/k0; lia) Lt.
exact: Hh.
Qed.
Print Assumptions C133_perfect_data_perfect_reconstruction.

(** An accelerating point measured in position: data of a trajectory at indices 0..2. *)
Example C133_example (R : rcfType) :
  let f := fun (x u : 'cV[R]_1) (_ : Z) => x + u in
  let h := fun (x _ : 'cV[R]_1) (_ : Z) => x in
  let u := mkIarr 0 [:: const_mx 1; const_mx 2] in
  let y := mkIarr 1 [:: const_mx 1; const_mx 1 + const_mx 2] in
  let tr := fun t => if Z.eqb t 0 then 0 else if Z.eqb t 1 then const_mx 1 else const_mx 1 + const_mx 2 : 'cV[R]_1 in
  let uin := fun t => if Z.eqb t 0 then const_mx 1 else const_mx 2 : 'cV[R]_1 in
  (forall t, Z.le (ia_first y) t -> Z.le t (ia_last y) -> ia_at y t = Ok (tr t)) /\
  (forall t, Z.le (Z.sub (ia_first y) 1) t ->
     Z.lt t (ia_last y) \/ t = Z.sub (ia_first y) 1 -> ia_at u t = Ok (uin t)) /\
  (forall t, Z.le (Z.sub (ia_first y) 1) t -> Z.lt t (ia_last y) ->
     tr (nxt t) = f (tr t) (uin t) t /\ tr (nxt t) = h (tr (nxt t)) 0 (nxt t)).
Proof.
rewrite /ia_first /ia_last /ia_size /=; split; [|split] => t H1 H2.
- by have [->|->] : t = Z.pos 1 \/ t = Z.pos 2 by lia.
- by have [->|->] : t = Z0 \/ t = Z.pos 1 by lia.
have [->|->] : t = Z0 \/ t = Z.pos 1 by lia.
  by rewrite /= add0r.
by [].
Qed.

(** C134. Causality: two logs that start at the same index and agree up to the time t (inputs
    before t) give the same estimate at t, whatever follows and however long it is. The measure
    function ignores the input, as those of both functors do (src/imu-dynamical-system.cpp:77,
    src/imu-mltpctive-dynamical-system.cpp). *)
Theorem C134_estimates_do_not_depend_on_the_future :
  forall (R : rcfType) (n nt m p : nat) (f : 'cV[R]_n -> 'cV[R]_p -> Z -> 'cV[R]_n)
         (h : 'cV[R]_n -> 'cV[R]_p -> Z -> 'cV[R]_m) ssum sdiff mdiff (jac : jacfun R n nt m p) reg
         md y u y' u' (yin yin' : Z -> 'cV[R]_m) (uin uin' : Z -> 'cV[R]_p) xh0 P Q Rm t,
  (exists dx, jac = jac_fd f h ssum sdiff dx) \/ (exists fA fC, jac = jac_analytic f fA fC) ->
  (0 < p)%N -> psd P -> psd Q -> pd Rm ->
  (forall x u u' k, h x u k = h x u' k) ->
  (forall t, Z.le (ia_first y) t -> Z.le t (ia_last y) -> ia_at y t = Ok (yin t)) ->
  (forall t, Z.le (Z.sub (ia_first y) 1) t ->
     Z.lt t (ia_last y) \/ t = Z.sub (ia_first y) 1 -> ia_at u t = Ok (uin t)) ->
  (forall t, Z.le (ia_first y') t -> Z.le t (ia_last y') -> ia_at y' t = Ok (yin' t)) ->
  (forall t, Z.le (Z.sub (ia_first y') 1) t ->
     Z.lt t (ia_last y') \/ t = Z.sub (ia_first y') 1 -> ia_at u' t = Ok (uin' t)) ->
  ia_first y = ia_first y' ->
  Z.le (Z.sub (ia_first y) 1) t -> Z.le t (ia_last y) -> Z.le t (ia_last y') ->
  (forall i, Z.le (ia_first y) i -> Z.le i t -> ia_at y i = ia_at y' i) ->
  (forall i, Z.le (Z.sub (ia_first y) 1) i -> Z.lt i t -> ia_at u i = ia_at u' i) ->
  exists xh xh', off_rec f h ssum mdiff jac reg md y u xh0 P Q Rm = Ok xh /\
    off_rec f h ssum mdiff jac reg md y' u' xh0 P Q Rm = Ok xh' /\
    exists x, ia_at xh t = Ok x /\ ia_at xh' t = Ok x.
Proof.
move=> R n nt m p f h ssum sdiff mdiff jac reg md y u y' u' yin yin' uin uin' xh0 P Q Rm t Hj p0 pP pQ pR Hh
  Hy Hu Hy' Hu' Ef T1 T2 T3 Ey Eu.
have [JA [JC [gj /(_ Hh) HC]]] := two_jacs_good p0 Hj.
eexists; eexists.
split; first exact: (off_rec_at ssum mdiff reg md _ p0 gj pP pQ pR Hy Hu).
split; first exact: (off_rec_at ssum mdiff reg md _ p0 gj pP pQ pR Hy' Hu').
rewrite -Ef; set k0 := Z.sub (ia_first y) 1 in T1 *.
have El : ia_last y = Z.add k0 (Z.of_nat (length (ia_v y))) by rewrite /ia_last /ia_size /k0 /ia_first; lia.
have El' : ia_last y' = Z.add k0 (Z.of_nat (length (ia_v y'))) by rewrite /ia_last /ia_size /k0 Ef /ia_first; lia.
have Ek : Z.add k0 (Z.of_nat (Z.to_nat (Z.sub t k0))) = t by lia.
have Lk : (Z.to_nat (Z.sub t k0) <= length (ia_v y))%N by apply/ssrnat.leP; lia.
have Lk' : (Z.to_nat (Z.sub t k0) <= length (ia_v y'))%N by apply/ssrnat.leP; lia.
eexists; rewrite -{1}Ek map_seq_at //; split; first by [].
rewrite -{1}Ek map_seq_at //; congr Ok; congr fst; apply: ref_causal => // i /ssrnat.ltP Hi.
  have E := Ey (nxt (Z.add k0 (Z.of_nat i))) ltac:(rewrite /k0; lia) ltac:(lia).
  by move: E; rewrite Hy ?Hy' -?Ef; [case=> -> | rewrite /k0; lia | lia | rewrite /k0; lia | lia].
have E := Eu (Z.add k0 (Z.of_nat i)) ltac:(rewrite /k0; lia) ltac:(lia).
have L1 : Z.lt (Z.add k0 (Z.of_nat i)) (ia_last y) by lia.
have L2 : Z.lt (Z.add k0 (Z.of_nat i)) (ia_last y') by lia.
rewrite (proj2 (Z.ltb_lt _ _) L1) (proj2 (Z.ltb_lt _ _) L2).
by move: E; rewrite Hu ?Hu' -?Ef; [case=> -> | rewrite /k0; lia | left | rewrite /k0; lia | left].
Qed.
Print Assumptions C134_estimates_do_not_depend_on_the_future.

(** The log of C132 and the same log with another second measurement and input. *)
Example C134_example (R : rcfType) :
  (forall i, Z.le 3 i -> Z.le i 3 -> ia_at (ex_y R) i = ia_at (mkIarr 3 [:: 0; const_mx 7; const_mx 5]) i) /\
  (forall i, Z.le 2 i -> Z.lt i 3 -> ia_at (ex_u R) i = ia_at (mkIarr 2 [:: const_mx 1; const_mx 9; 0]) i).
Proof.
split=> i H1 H2.
  by have -> : i = Z.pos 3 by lia.
by have -> : i = Z.pos 2 by lia.
Qed.

(** C135. Without inputs: the overload succeeds for every array of measurements and returns what
    the other one returns for any array of inputs that is zero at the indices that are read. *)
Theorem C135_no_input_is_zero_input :
  forall (R : rcfType) (n nt m p : nat) (f : 'cV[R]_n -> 'cV[R]_p -> Z -> 'cV[R]_n)
         (h : 'cV[R]_n -> 'cV[R]_p -> Z -> 'cV[R]_m) ssum sdiff mdiff (jac : jacfun R n nt m p) reg
         md y u (yin : Z -> 'cV[R]_m) xh0 P Q Rm,
  (exists dx, jac = jac_fd f h ssum sdiff dx) \/ (exists fA fC, jac = jac_analytic f fA fC) ->
  (0 < p)%N -> psd P -> psd Q -> pd Rm ->
  (forall t, Z.le (ia_first y) t -> Z.le t (ia_last y) -> ia_at y t = Ok (yin t)) ->
  (forall t, Z.le (Z.sub (ia_first y) 1) t ->
     Z.lt t (ia_last y) \/ t = Z.sub (ia_first y) 1 -> ia_at u t = Ok (0 : 'cV[R]_p)) ->
  exists xh, off_rec0 f h ssum mdiff jac reg md y xh0 P Q Rm = Ok xh /\
             off_rec f h ssum mdiff jac reg md y u xh0 P Q Rm = Ok xh.
Proof.
move=> R n nt m p f h ssum sdiff mdiff jac reg md y u yin xh0 P Q Rm Hj p0 pP pQ pR Hy Hu.
have [JA [JC [gj _]]] := two_jacs_good p0 Hj.
eexists; split; last exact: (off_rec_at ssum mdiff reg md _ p0 gj pP pQ pR Hy (uin := fun _ => 0) Hu).
rewrite /off_rec0 zero_inputs_all obO.
apply: (off_rec_at ssum mdiff reg md _ p0 gj pP pQ pR Hy (uin := fun _ => 0)) => t H1 H2.
have El : ia_last y = Z.sub (Z.add (ia_first y) (Z.of_nat (length (ia_v y)))) 1 by rewrite /ia_last /ia_size /ia_first.
rewrite /ia_at /ia_k /ia_v -/(ia_v y) -/(ia_k y) -/(ia_first y).
have -> : Z.leb (Z.sub (ia_first y) 1) t = true by apply/Z.leb_le.
rewrite (List.nth_error_nth' _ 0); first by rewrite List.nth_repeat.
by rewrite List.repeat_length; lia.
Qed.
Print Assumptions C135_no_input_is_zero_input.

Example C135_example (R : rcfType) : forall t, Z.le (Z.sub (ia_first (ex_y R)) 1) t ->
  Z.lt t (ia_last (ex_y R)) \/ t = Z.sub (ia_first (ex_y R)) 1 ->
  ia_at (mkIarr 1 [:: const_mx 4; 0; 0; const_mx 8]) t = Ok (0 : 'cV[R]_1).
Proof.
rewrite /ia_first /ia_last /ia_size /= => t H1 H2.
by have [->|->] : t = Z.pos 2 \/ t = Z.pos 3 by lia.
Qed.

(** C136. A certain start and no process noise: the measurements have no effect, the
    reconstruction is the open-loop simulation of the model. *)
Theorem C136_certain_model_ignores_measurements :
  forall (R : rcfType) (n nt m p : nat) (f : 'cV[R]_n -> 'cV[R]_p -> Z -> 'cV[R]_n)
         (h : 'cV[R]_n -> 'cV[R]_p -> Z -> 'cV[R]_m) ssum sdiff mdiff (jac : jacfun R n nt m p)
         md y u (yin : Z -> 'cV[R]_m) (uin : Z -> 'cV[R]_p) xh0 Rm,
  (exists dx, jac = jac_fd f h ssum sdiff dx) \/ (exists fA fC, jac = jac_analytic f fA fC) ->
  (0 < p)%N -> pd Rm -> (forall x, ssum x 0 = x) ->
  (forall t, Z.le (ia_first y) t -> Z.le t (ia_last y) -> ia_at y t = Ok (yin t)) ->
  (forall t, Z.le (Z.sub (ia_first y) 1) t ->
     Z.lt t (ia_last y) \/ t = Z.sub (ia_first y) 1 -> ia_at u t = Ok (uin t)) ->
  exists xh, off_rec f h ssum mdiff jac id md y u xh0 0 0 Rm = Ok xh /\
    ia_at xh (Z.sub (ia_first y) 1) = Ok xh0 /\
    forall t, Z.le (Z.sub (ia_first y) 1) t -> Z.lt t (ia_last y) ->
      exists x, ia_at xh t = Ok x /\ ia_at xh (nxt t) = Ok (f x (uin t) t).
Proof.
move=> R n nt m p f h ssum sdiff mdiff jac md y u yin uin xh0 Rm Hj p0 pR s0 Hy Hu.
have [JA [JC [gj _]]] := two_jacs_good p0 Hj.
eexists; split; first exact: (off_rec_at ssum mdiff id md _ p0 gj (psd0 _ _) (psd0 _ _) pR Hy Hu).
set k0 := Z.sub (ia_first y) 1.
set g := fun i => _.
have A := fun j => @map_seq_at _ g k0 (length (ia_v y)) j.
have E : forall j, g j = sim f (fun t => if Z.ltb t (ia_last y) then uin t else 0) k0 xh0 j.
  by move=> j; rewrite /g ref_certain.
split; first by have := A 0%N isT; rewrite Z.add_0_r E.
have El : ia_last y = Z.add k0 (Z.of_nat (length (ia_v y))) by rewrite /ia_last /ia_size /k0 /ia_first; lia.
move=> t H1 H2.
have Ek : Z.add k0 (Z.of_nat (Z.to_nat (Z.sub t k0))) = t by lia.
have Ek1 : Z.add k0 (Z.of_nat (Z.to_nat (Z.sub t k0)).+1) = nxt t by lia.
have Lk : ((Z.to_nat (Z.sub t k0)).+1 <= length (ia_v y))%N by apply/ssrnat.leP; lia.
have A0 := A _ (ltnW Lk); have A1 := A _ Lk; rewrite Ek in A0; rewrite Ek1 in A1.
exists (g (Z.to_nat (Z.sub t k0))); split=> //; rewrite A1 !E /= Ek.
by rewrite (proj2 (Z.ltb_lt _ _) H2).
Qed.
Print Assumptions C136_certain_model_ignores_measurements.
(** The hypotheses are those of C132, met by its example. *)
Example C136_example (R : rcfType) : pd (1%:M : 'M[R]_2) /\ forall x : 'cV[R]_3, vsum x 0 = x.
Proof. by split; [exact: pd1|move=> x; rewrite /vsum addr0]. Qed.

(** C137. Only the relative sizes of the covariances matter: multiplying P, Q and R by the same
    positive number changes no estimate. *)
Theorem C137_common_scale_of_covariances :
  forall (R : rcfType) (n nt m p : nat) (f : 'cV[R]_n -> 'cV[R]_p -> Z -> 'cV[R]_n)
         (h : 'cV[R]_n -> 'cV[R]_p -> Z -> 'cV[R]_m) ssum sdiff mdiff (jac : jacfun R n nt m p) reg
         md y u (yin : Z -> 'cV[R]_m) (uin : Z -> 'cV[R]_p) xh0 P Q Rm c,
  (exists dx, jac = jac_fd f h ssum sdiff dx) \/ (exists fA fC, jac = jac_analytic f fA fC) ->
  (0 < p)%N -> psd P -> psd Q -> pd Rm -> 0 < c ->
  (forall t, Z.le (ia_first y) t -> Z.le t (ia_last y) -> ia_at y t = Ok (yin t)) ->
  (forall t, Z.le (Z.sub (ia_first y) 1) t ->
     Z.lt t (ia_last y) \/ t = Z.sub (ia_first y) 1 -> ia_at u t = Ok (uin t)) ->
  exists xh, off_rec f h ssum mdiff jac reg md y u xh0 P Q Rm = Ok xh /\
             off_rec f h ssum mdiff jac reg md y u xh0 (c *: P) (c *: Q) (c *: Rm) = Ok xh.
Proof.
move=> R n nt m p f h ssum sdiff mdiff jac reg md y u yin uin xh0 P Q Rm c Hj p0 pP pQ pR c0 Hy Hu.
have [JA [JC [gj _]]] := two_jacs_good p0 Hj.
eexists; split; first exact: (off_rec_at ssum mdiff reg md _ p0 gj pP pQ pR Hy Hu).
rewrite (off_rec_at ssum mdiff reg md _ p0 gj (psdZ (ltW c0) pP) (psdZ (ltW c0) pQ) (pdZ c0 pR) Hy Hu).
congr Ok; congr mkIarr; apply: List.map_ext => j.
by rewrite ref_scale.
Qed.
Print Assumptions C137_common_scale_of_covariances.
Example C137_example (R : rcfType) : psd (1%:M : 'M[R]_3) /\ pd (1%:M : 'M[R]_2) /\ 0 < 5%:R :> R.
Proof. by split; [exact: pd_psd (pd1 _ _)|split; [exact: pd1|rewrite ltr0n]]. Qed.
