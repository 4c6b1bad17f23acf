(** The part of the Plonk verifier that runs inside a circuit
    (/repo/plonk/src/circuit/plonk_verifier/{mod,gadgets,poly,structs}.rs).  Errors of the
    proof system turn into [CircuitError::ParameterError] (errors.rs:102-108).  A [usize]
    subtraction below zero is a panic, as everywhere in this model. *)

From Coq Require Import List Arith ZArith Bool.
From Verif Require Import Base ListAux Alg KzgModel CircuitModel GadgetModel EccModel ModArithModel
  RescueModel RescueGadgetModel TranscriptGadgetModel.
Import ListNotations.
Local Open Scope fld_scope.
Local Open Scope circ_scope.

Section PlonkVerifier.
  (** The native field [F = E::BaseField] and the scalar field [Fr = E::ScalarField], each
      with [into_bigint]; [nbits] and [tbits] are their [MODULUS_BIT_SIZE]. *)
  Context {K Fr : fld}.
  Variable zval : K -> Z.
  Variable modulus : Z.
  Variables nbits repr_bits : nat.
  Variable zr : Fr -> Z.
  Variable tmod : Z.
  Variable tbits : nat.
  (** [Radix2EvaluationDomain::<E::ScalarField>::new] *)
  Variable radix2 : nat -> option (dom Fr).
  Notation C := (circ K).
  Notation fv := (fvar (K := K)).

  (** utilities/src/conversion.rs:138-144, [field_switching] from and to the native field *)
  Definition to_r (x : K) : Fr := fZ (zval x).
  Definition of_r (a : Fr) : K := fZ (zr a).
  (** Division in the scalar field: [inverse().unwrap()] panics on zero. *)
  Definition rdiv (a b : Fr) : C Fr := if feqb b 0 then cpanic else ret (a * finv b).

  (** structs.rs:185-190 *)
  Record nninfo := mk_nn { ni_m : nat; ni_two : option K; ni_mod : K; ni_elem : felem (K := K) }.
  (** structs.rs:171-181 *)
  Record pevar := mk_pev { ev_wires : list fv; ev_sigmas : list fv; ev_next : fv }.
  (** structs.rs:29-37; [alphas] are [alpha, alpha^2, alpha^3] *)
  Record chvar := mk_chv {
    cv_a1 : fv; cv_a2 : fv; cv_a3 : fv; cv_beta : fv; cv_gamma : fv; cv_zeta : fv; cv_v : fv; cv_u : fv }.
  (** structs.rs:19-26 *)
  Record rawch := mk_raw { rc_alpha : nat; rc_beta : nat; rc_gamma : nat; rc_zeta : nat; rc_v : nat; rc_u : nat }.
  (** structs.rs:137-159 *)
  Record bproofvar := mk_bpv {
    bv_wires : list (list pvar); bv_perms : list pvar; bv_evals : list pevar; bv_quots : list pvar;
    bv_open : pvar; bv_shifted : pvar }.
  (** structs.rs:163-165 *)
  Definition bv_len (b : bproofvar) : nat := length (bv_perms b).
  (** mod.rs:36-53 *)
  Record vkvar := mk_kv {
    kv_sigmas : list pvar; kv_sels : list pvar; kv_merged : bool; kv_n : nat; kv_inputs : nat; kv_k : list Fr }.
  (** structs.rs:124-132; the scalars and bases are paired *)
  Record pcsvar := mk_pcsv {
    pc_u : fv; pc_point : fv; pc_next : fv; pc_eval : fv; pc_comm : list (fv * pvar); pc_open : pvar; pc_shifted : pvar }.

  Section Info.
    Variable ni : nninfo.
    (** The calls with the arguments every function here gives them. *)
    Definition vmul (x y : fv) : C fv := mod_mul zval modulus nbits repr_bits x y (ni_elem ni).
    Definition vmulc (x : fv) (e : felem (K := K)) : C fv := mod_mul_constant zval modulus nbits repr_bits x e (ni_elem ni).
    Definition vadd (x y : fv) : C fv := mod_add zval modulus nbits repr_bits x y (ni_elem ni).
    Definition vaddc (x : fv) (e : felem (K := K)) : C fv := mod_add_constant zval modulus nbits repr_bits x e (ni_elem ni).
    Definition vsum (xs : list fv) : C fv := mod_add_vec zval modulus nbits repr_bits xs (ni_elem ni).
    Definition vconst (x : K) : C (felem (K := K)) := lift (fun _ => felem_new zval nbits x (ni_m ni) (ni_two ni)).
    Definition vhint (a : Fr) : C fv := fvar_new_from_field_element zval modulus nbits repr_bits (of_r a) (ni_m ni) (ni_two ni).
    Definition vsplit (v : nat) : C fv := fvar_new_unchecked zval nbits v (ni_m ni) (ni_two ni).
    Definition vone : fv := fvar_one (ni_m ni) (ni_two ni).
    Definition vwit (x : fv) : C Fr := w <- fvar_witness x ;; ret (to_r w).

    (** structs.rs:39-94 *)
    Definition challenge_var_to_fp_elem_var (r : rawch) : C chvar :=
      a <- vsplit (rc_alpha r) ;; a2 <- vmul a a ;; a3 <- vmul a2 a ;;
      be <- vsplit (rc_beta r) ;; ga <- vsplit (rc_gamma r) ;; ze <- vsplit (rc_zeta r) ;;
      u <- vsplit (rc_u r) ;; v <- vsplit (rc_v r) ;;
      ret (mk_chv a a2 a3 be ga ze v u).

    (** poly.rs:68-77, the loop: one squaring for each doubling of [ctr] below [n] *)
    Definition squarings (zeta : fv) (n : nat) : C fv := foldM (fun x _ => vmul x x) zeta (seq 0 (Nat.log2_up n)).
    (** poly.rs:40-163 *)
    Definition evaluate_poly_helper (zeta : fv) (n : nat) : C (fv * fv * fv) :=
      ne <- vconst (fZ (Z.of_nat n)) ;;
      z <- vwit zeta ;;
      zn <- squarings zeta n ;;
      znr <- vwit zn ;;
      zm <- vhint (znr - 1) ;;
      one <- vconst 1 ;;
      rec <- vaddc zm one ;;
      fvar_enforce_equal zn rec >>
      (let zmr := to_r (of_r (znr - 1)) in
       l1r <- rdiv zmr (fZ (Z.of_nat n) * (z - 1)) ;;
       l1 <- vhint l1r ;;
       zm1 <- vhint (z - 1) ;;
       rec' <- vaddc zm1 one ;;
       fvar_enforce_equal zeta rec' >>
       (left <- vmulc l1 ne ;;
        left <- vmul left zm1 ;;
        fvar_enforce_equal left zm >>
        ret (zn, zm, l1))).

    (** poly.rs:212-252, one turn of the loop *)
    Definition lagrange_eval (zeta vanish : fv) (z vr vi gi : Fr) : C fv :=
      vie <- vconst (of_r vi) ;;
      gie <- vconst (of_r gi) ;;
      e <- rdiv (vr * vi) (z - gi) ;;
      zg <- vhint (z - gi) ;;
      rec <- vaddc zg gie ;;
      fvar_enforce_equal zeta rec >>
      (ev <- vhint e ;;
       left <- vmul ev zg ;;
       right <- vmulc vanish vie ;;
       fvar_enforce_equal left right >>
       ret ev).
    (** poly.rs:175-276; [Vec] indexing panics out of range *)
    Definition evaluate_pi_poly_circuit (n : nat) (pi : list fv) (zeta vanish : fv) (merged : bool) : C fv :=
      if negb merged then fail ParameterError else
      let len := (length pi / 2)%nat in
      z <- vwit zeta ;;
      vr <- vwit vanish ;;
      d <- (match radix2 n with Some d => ret d | None => cpanic end) ;;
      vis <- mapM (fun i => rdiv (dom_element Fr d i) (fZ (Z.of_nat n))) (seq 0 n) ;;
      if (n <? len)%nat then cpanic else
      ls <- mapM (fun i => vi <- idx vis i ;; lagrange_eval zeta vanish z vr vi (dom_element Fr d i))
              (seq 0 len ++ seq (n - len) len) ;;
      ts <- mapM (fun i =>
               l <- idx ls i ;; p <- idx pi i ;; t1 <- vmul l p ;;
               l' <- idx ls (2 * len - i - 1) ;; p' <- idx pi (len + i) ;; t2 <- vmul l' p' ;;
               ret [t1; t2]) (seq 0 len) ;;
      vsum (concat ts).

    (** [PartialEq] of [FpElemVar] (mod_arith.rs:83) *)
    Definition fvar_eqb (x y : fv) : bool :=
      (v0 x =? v0 y)%nat && (v1 x =? v1 y)%nat && (vm x =? vm y)%nat && feqb (vtwo x) (vtwo y).
    Fixpoint fvars_eqb (l l' : list fv) : bool :=
      match l, l' with
      | [], [] => true
      | x :: l, y :: l' => fvar_eqb x y && fvars_eqb l l'
      | _, _ => false
      end.

    (** poly.rs:366-461, one turn of the loop; [pir] and [l1r] are the values of [pi] and [l1a2] *)
    Definition lin_const_instance_circuit (ch : chvar) (pi l1a2 : fv) (pir l1r : Fr) (pe : pevar) (base : option fv) : C fv :=
      ws <- (if (length (ev_wires pe) <? 4)%nat then cpanic else ret (firstn 4 (ev_wires pe))) ;;
      prod <- foldM (fun prod ws =>
                 bs <- vmul (cv_beta ch) (snd ws) ;;
                 sum <- vsum [fst ws; bs; cv_gamma ch] ;;
                 vmul prod sum) vone (combine ws (ev_sigmas pe)) ;;
      w4 <- idx (ev_wires pe) 4 ;;
      tmp <- vadd w4 (cv_gamma ch) ;;
      tmp <- vmul tmp (ev_next pe) ;;
      tmp <- vmul tmp (cv_a1 ch) ;;
      tmp <- vmul tmp prod ;;
      tr <- vwit tmp ;;
      r <- vhint (pir - l1r - tr) ;;
      left <- vadd r l1a2 ;;
      left <- vadd left tmp ;;
      fvar_enforce_equal left pi >>
      (b <- (match base with Some b => ret b | None => fail ParameterError end) ;;
       vmul b r).
    (** poly.rs:293-476 *)
    Definition compute_lin_poly_constant_term_circuit (n : nat) (ch : chvar) (vks : list vkvar) (pis : list (list fv))
        (b : bproofvar) (vanish l1 : fv) (bases : list fv) : C fv :=
      if negb (length vks =? bv_len b)%nat || negb (length vks =? length pis)%nat then fail ParameterError else
      pi <- idx pis 0 ;;
      if negb (forallb (fvars_eqb pi) (skipn 1 pis)) then fail ParameterError else
      pv <- evaluate_pi_poly_circuit n pi (cv_zeta ch) vanish true ;;
      pir <- vwit pv ;;
      l1a2 <- vmul l1 (cv_a2 ch) ;;
      l1r <- vwit l1a2 ;;
      rs <- mapM (fun ie => lin_const_instance_circuit ch pv l1a2 pir l1r (snd ie) (nth_error bases (fst ie)))
              (combine (seq 0 (length (bv_evals b))) (bv_evals b)) ;;
      if (length (bv_evals b) <? length bases)%nat then fail ParameterError else
      vsum rs.

    (** poly.rs:626-668, the scalars of the selectors *)
    Definition selector_scalars_circuit (w : list fv) : C (list fv) :=
      w0 <- idx w 0 ;; w1 <- idx w 1 ;; w2 <- idx w 2 ;; w3 <- idx w 3 ;;
      w01 <- vmul w0 w1 ;; w23 <- vmul w2 w3 ;;
      p0 <- non_native_power_5_gen zval modulus nbits repr_bits tmod tbits w0 ;;
      p1 <- non_native_power_5_gen zval modulus nbits repr_bits tmod tbits w1 ;;
      p2 <- non_native_power_5_gen zval modulus nbits repr_bits tmod tbits w2 ;;
      p3 <- non_native_power_5_gen zval modulus nbits repr_bits tmod tbits w3 ;;
      w4 <- idx w 4 ;;
      t <- vmul w0 w1 ;; t <- vmul t w2 ;; t <- vmul t w3 ;; t <- vmul t w4 ;;
      ret [w0; w1; w2; w3; w01; w23; p0; p1; p2; p3; w4; vone; t].
    (** poly.rs:670-691: the base of the selector at index 10 is inverted *)
    Definition selector_terms_circuit (base : fv) (ss : list fv) (sels : list pvar) : C (list (fv * pvar)) :=
      mapM (fun isp => let '(i, (s, poly)) := isp in
              bs <- (if (i =? 10)%nat then inverse_point poly else ret poly) ;;
              t <- vmul s base ;;
              ret (t, bs)) (combine (seq 0 (length ss)) (combine ss sels)).
    (** poly.rs:528-691, one turn of the loop; [bz ab a2l1] are [beta zeta], [alpha beta], [alpha^2 L1] *)
    Definition lin_terms_instance_circuit (ch : chvar) (bz ab a2l1 : fv) (b : bproofvar) (i : nat) (vk : vkvar)
        (base : option fv) : C (list (fv * pvar)) :=
      bs <- (match base with Some x => ret x | None => fail ParameterError end) ;;
      pe <- idx (bv_evals b) i ;;
      prod <- foldM (fun prod wk =>
                 e <- vconst (of_r (snd wk)) ;;
                 bkz <- vmulc bz e ;;
                 sum <- vsum [bkz; fst wk; cv_gamma ch] ;;
                 vmul prod sum) (cv_a1 ch) (combine (ev_wires pe) (kv_k vk)) ;;
      cz <- vadd a2l1 prod ;;
      cz <- vmul cz bs ;;
      zc <- idx (bv_perms b) i ;;
      wcs <- idx (bv_wires b) i ;;
      cs <- vmul ab (ev_next pe) ;;
      nw <- (if (length wcs <? 1)%nat then cpanic else ret (length wcs - 1)%nat) ;;
      cs <- foldM (fun cs ws =>
               bsg <- vmul (cv_beta ch) (snd ws) ;;
               sum <- vsum [fst ws; cv_gamma ch; bsg] ;;
               vmul cs sum) cs (combine (firstn nw (ev_wires pe)) (ev_sigmas pe)) ;;
      cs <- vmul cs bs ;;
      sg <- (match rev (kv_sigmas vk) with x :: _ => ret x | [] => fail IndexError end) ;;
      sg <- inverse_point sg ;;
      ss <- selector_scalars_circuit (ev_wires pe) ;;
      ts <- selector_terms_circuit bs ss (kv_sels vk) ;;
      ret ((cz, zc) :: (cs, sg) :: ts).
    (** poly.rs:721-731 *)
    Fixpoint quot_terms_circuit (zn2 coeff : fv) (cs : list pvar) : C (list (fv * pvar)) :=
      match cs with
      | [] => ret []
      | c :: cs' =>
          k <- vmul coeff zn2 ;; c' <- inverse_point c ;;
          ts <- quot_terms_circuit zn2 k cs' ;; ret ((k, c') :: ts)
      end.
    (** poly.rs:486-734 *)
    Definition linearization_scalars_and_bases_circuit (vks : list vkvar) (ch : chvar) (zn zm l1 : fv) (b : bproofvar)
        (bases : list fv) : C (list (fv * pvar)) :=
      bz <- vmul (cv_beta ch) (cv_zeta ch) ;;
      ab <- vmul (cv_a1 ch) (cv_beta ch) ;;
      a2l1 <- vmul (cv_a2 ch) l1 ;;
      ts <- mapM (fun iv => lin_terms_instance_circuit ch bz ab a2l1 b (fst iv) (snd iv) (nth_error bases (fst iv)))
              (combine (seq 0 (length vks)) vks) ;;
      if (length vks <? length bases)%nat then fail ParameterError else
      z2 <- vmul (cv_zeta ch) (cv_zeta ch) ;;
      zn2 <- vmul z2 zn ;;
      match bv_quots b with
      | [] => fail IndexError
      | q0 :: qs =>
          q0' <- inverse_point q0 ;;
          qts <- quot_terms_circuit zn2 zm qs ;;
          ret (concat ts ++ (zm, q0') :: qts)
      end.

    (** gadgets.rs:397-413: a run of [add_poly_comm_circuit]s; the pairs pushed and the next combiner *)
    Fixpoint add_comms_circuit (r base : fv) (cs : list pvar) : C (list (fv * pvar) * fv) :=
      match cs with
      | [] => ret ([], base)
      | c :: cs' =>
          nx <- vmul base r ;;
          x <- add_comms_circuit r nx cs' ;;
          ret ((base, c) :: fst x, snd x)
      end.
    (** gadgets.rs:89-126, one turn of the loop *)
    Definition agg_instance_circuit (v vb uvb : fv) (b : bproofvar) (i : nat) (vk : vkvar) : C (list (fv * pvar) * fv * fv) :=
      wcs <- idx (bv_wires b) i ;;
      a <- add_comms_circuit v vb wcs ;;
      nw <- (if (length wcs <? 1)%nat then cpanic else ret (length wcs - 1)%nat) ;;
      s <- add_comms_circuit v (snd a) (firstn nw (kv_sigmas vk)) ;;
      zc <- idx (bv_perms b) i ;;
      z <- add_comms_circuit v uvb [zc] ;;
      ret (fst a ++ fst s ++ fst z, snd s, snd z).
    (** gadgets.rs:52-129 *)
    Definition aggregate_poly_commitments_circuit (vks : list vkvar) (ch : chvar) (zn zm l1 : fv) (b : bproofvar)
        (bases : list fv) : C (list (fv * pvar) * list fv) :=
      if negb (length vks =? bv_len b)%nat then fail ParameterError else
      sb <- linearization_scalars_and_bases_circuit vks ch zn zm l1 b bases ;;
      r <- foldM (fun st iv =>
              x <- agg_instance_circuit (cv_v ch) (snd (fst st)) (snd st) b (fst iv) (snd iv) ;;
              ret (fst (fst st) ++ fst (fst x), snd (fst x), snd x))
            ([], cv_v ch, cv_u ch) (combine (seq 0 (length vks)) vks) ;;
      ret (sb ++ fst (fst r), map fst (fst (fst r))).

    (** gadgets.rs:134-187: [evs] are all evaluations in order, an exhausted or unconsumed
        buffer is the same error.  The code meets an exhausted buffer only after the gates
        of the evaluations before it; the model returns the error with those gates too. *)
    Fixpoint add_evals_circuit (acc : fv) (evs buf : list fv) : C fv :=
      match evs, buf with
      | [], [] => ret acc
      | e :: evs', r :: buf' => t <- vmul r e ;; acc' <- vadd acc t ;; add_evals_circuit acc' evs' buf'
      | _, _ => fail ParameterError
      end.
    Definition aggregate_evaluations_circuit (const : fv) (pes : list pevar) (buf : list fv) : C fv :=
      r <- mod_negate zval nbits const (ni_mod ni) ;;
      add_evals_circuit r (concat (map (fun pe => ev_wires pe ++ ev_sigmas pe ++ [ev_next pe]) pes)) buf.

    (** gadgets.rs:432-456 *)
    Fixpoint alpha_powers_circuit (cur a3 : fv) (k : nat) : C (list fv) :=
      match k with
      | 0%nat => ret []
      | S k' => nx <- vmul cur a3 ;; l <- alpha_powers_circuit nx a3 k' ;; ret (nx :: l)
      end.
    Definition compute_alpha_basis (a3 : fv) (len : nat) : C (list fv) :=
      if (len =? 0)%nat then cpanic else
      l <- alpha_powers_circuit vone a3 (len - 1) ;; ret (vone :: l).

    (** gadgets.rs:191-252, without an extra message, which is what [partial_verify_circuit]
        passes *)
    Variable RP : rescue_params K.
    Definition raw_challenges (vks : list vkvar) (pis : list (list fv)) (b : bproofvar) : C rawch :=
      if negb (length vks =? bv_len b)%nat || negb (length vks =? length pis)%nat then fail ParameterError else
      let challenge := get_challenge_var RP zval modulus nbits repr_bits tbits nbits in
      t <- foldM (fun t kp => append_vk_and_pub_input_vars t (kv_sels (fst kp)) (kv_sigmas (fst kp)) (snd kp))
             tv_new (combine vks pis) ;;
      let t := fold_left append_commitments_vars (bv_wires b) t in
      x <- challenge t ;; let beta := fst x in
      x <- challenge (snd x) ;; let gamma := fst x in
      let t := append_commitments_vars (snd x) (bv_perms b) in
      x <- challenge t ;; let alpha := fst x in
      let t := append_commitments_vars (snd x) (bv_quots b) in
      x <- challenge t ;; let zeta := fst x in
      t <- foldM (fun t pe => append_proof_evaluations_vars t (ev_wires pe) (ev_sigmas pe) (ev_next pe)) (snd x) (bv_evals b) ;;
      x <- challenge t ;; let v := fst x in
      let t := append_commitment_var (append_commitment_var (snd x) (bv_open b)) (bv_shifted b) in
      x <- challenge t ;; let u := fst x in
      ret (mk_raw alpha beta gamma zeta v u).
    (** gadgets.rs:253-262 *)
    Definition compute_challenges_vars (vks : list vkvar) (pis : list (list fv)) (b : bproofvar) : C chvar :=
      r <- raw_challenges vks pis b ;; challenge_var_to_fp_elem_var r.

    (** gadgets.rs:295-318 *)
    Definition check_instances (d : dom Fr) (vks : list vkvar) (pis : list (list fv)) : C unit :=
      iterM (fun pv : list fv * vkvar =>
          if negb (length (fst pv) =? kv_inputs (snd pv))%nat then fail ParameterError else
          if negb (kv_n (snd pv) =? dsize d)%nat then fail ParameterError else ret tt) (combine pis vks).
    (** gadgets.rs:330-391 *)
    Definition pcs_info_from_challenges (d : dom Fr) (vks : list vkvar) (pis : list (list fv)) (b : bproofvar) (ch : chvar) : C pcsvar :=
      bases <- compute_alpha_basis (cv_a3 ch) (length vks) ;;
      ev <- evaluate_poly_helper (cv_zeta ch) (dsize d) ;;
      let '(zn, zm, l1) := ev in
      const <- compute_lin_poly_constant_term_circuit (dsize d) ch vks pis b zm l1 bases ;;
      agg <- aggregate_poly_commitments_circuit vks ch zn zm l1 b bases ;;
      eval <- aggregate_evaluations_circuit const (bv_evals b) (snd agg) ;;
      g <- vconst (of_r (dgen d)) ;;
      nx <- vmulc (cv_zeta ch) g ;;
      ret (mk_pcsv (cv_u ch) (cv_zeta ch) nx eval (fst agg) (bv_open b) (bv_shifted b)).
    (** gadgets.rs:266-391 *)
    Definition prepare_pcs_info_var (d : dom Fr) (vks : list vkvar) (pis : list (list fv)) (b : bproofvar) : C pcsvar :=
      if negb (length vks =? bv_len b)%nat || negb (length vks =? length pis)%nat then fail ParameterError else
      check_instances d vks pis >>
      (ch <- compute_challenges_vars vks pis b ;;
       pcs_info_from_challenges d vks pis b ch).
  End Info.

  (** mod.rs:57-84; [TEPoint::from] a commitment is done by the caller *)
  Definition vkvar_new (sigmas sels : list (Edwards.pt K)) (merged : bool) (n inputs : nat) (k : list Fr) : C vkvar :=
    sg <- mapM create_point_variable sigmas ;;
    sl <- mapM create_point_variable sels ;;
    ret (mk_kv sg sl merged n inputs k).

  Section Curve.
    (** The coefficients of the twisted Edwards curve of the commitments. *)
    Variables A D : K.
    (** mod.rs:102-148 *)
    Definition vkvar_merge (x y : vkvar) : C vkvar :=
      if kv_merged x || kv_merged y then fail ParameterError else
      if negb (kv_n x =? kv_n y)%nat then fail ParameterError else
      if negb (kv_inputs x =? kv_inputs y)%nat then fail ParameterError else
      sg <- mapM (fun p => ecc_add A D (fst p) (snd p)) (combine (kv_sigmas x) (kv_sigmas y)) ;;
      sl <- mapM (fun p => ecc_add A D (fst p) (snd p)) (combine (kv_sels x) (kv_sels y)) ;;
      ret (mk_kv sg sl true (kv_n x) (kv_inputs x + kv_inputs y) (kv_k x)).
    (** mod.rs:303-328 *)
    Definition aggregate_verify_keys (xs ys : list vkvar) : C (list vkvar) :=
      if negb (length xs =? length ys)%nat then fail ParameterError else
      mapM (fun p => vkvar_merge (fst p) (snd p)) (combine xs ys).

    (** mod.rs:188-204: the split parameter and the modulus as an element *)
    Definition info_new : C nninfo :=
      rb <- lift range_bit_len ;;
      if (rb =? 0)%nat then cpanic else
      let m2 := ((tbits + 1) / 2)%nat in
      if (m2 =? 0)%nat then cpanic else
      let m := ((m2 - 1) / rb * rb + rb)%nat in
      let two := fpow (fZ 2) m in
      e <- lift (fun _ => felem_new zval nbits (fZ tmod) m (Some two)) ;;
      ret (mk_nn m (Some two) (fZ tmod) e).
    (** mod.rs:154-283 *)
    Variable RP : rescue_params K.
    Definition partial_verify_circuit (beta_g generator_g : Edwards.pt K) (vks : list vkvar) (pi : list fv) (b : bproofvar)
        (blinding : nat) : C (pvar * pvar) :=
      match vks with
      | [] => fail ParameterError
      | vk0 :: _ =>
          if negb (length vks =? bv_len b)%nat then fail ParameterError else
          if negb (forallb (fun vk => (kv_n vk =? kv_n vk0)%nat) vks) then fail ParameterError else
          ni <- info_new ;;
          d <- (match radix2 (kv_n vk0) with Some d => ret d | None => fail ParameterError end) ;;
          info <- prepare_pcs_info_var ni RP d vks (repeat (pi ++ pi) (length vks)) b ;;
          g <- create_constant_point_variable generator_g ;;
          u <- convert_to_var (pc_u info) ;;
          inner1 <- msm A D zval modulus nbits repr_bits tbits tmod [pc_open info; pc_shifted info; g] [1%nat; u; blinding] ;;
          t <- vmul ni (pc_next info) (pc_u info) ;;
          gi <- create_constant_point_variable (te_inverse generator_g) ;;
          let sb := pc_comm info ++ [(pc_point info, pc_open info); (t, pc_shifted info); (pc_eval info, gi)] in
          scalars <- mapM convert_to_var (map fst sb) ;;
          bg <- create_constant_point_variable beta_g ;;
          inner2 <- msm A D zval modulus nbits repr_bits tbits tmod (map snd sb ++ [bg]) (scalars ++ [blinding]) ;;
          ret (inner1, inner2)
      end.
  End Curve.
End PlonkVerifier.
