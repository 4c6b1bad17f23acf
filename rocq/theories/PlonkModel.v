(** Model of the PLONK proof system: plonk/src/lagrange.rs,
    plonk/src/proof_system/{prover,verifier,snark,structs}.rs and the
    polynomial-valued methods of relation/src/constraint_system.rs:1346-1643.

    Scalars are elements of an arbitrary field, the pairing groups are vector
    spaces over it with a bilinear map (as in [KzgModel]).  The transcript is an
    arbitrary state machine ([transcript]); the three implementations are modelled
    in [TranscriptModel].  The values drawn from the prover's random generator are
    the explicit argument [rnd]: one function per call site, so quantifying over
    [rnd] quantifies over everything the generator may return.  Error messages are
    dropped.  [usize] arithmetic does not overflow; an underflow is a panic. *)
From Coq Require Import String List Arith Bool.
From Verif Require Import Base Alg Poly KzgModel CircuitModel FinalModel.
Import ListNotations.

(** plonk/src/errors.rs:17-48 and 90-117, the variants used here. *)
Inductive perr :=
| IndexTooLarge
| DomainCreationError
| PIndexError
| ParamError
| WrongQuotientPolyDegree (got expected : nat)
| SnarkLookupUnsupported
| PcsErr (x : pcs_error)
| CircErr (x : cerr)
| WrongProof
| RescueError
| IteratorOutOfRange.

Definition lift_pcs {A} (r : outcome pcs_error A) : outcome perr A :=
  match r with Ok a => Ok a | Err x => Err (PcsErr x) | Panic => Panic end.
Definition lift_c {A} (r : outcome cerr A) : outcome perr A :=
  match r with Ok a => Ok a | Err x => Err (CircErr x) | Panic => Panic end.
(** A loop over a fallible step. *)
Fixpoint fold_res {X A B} (f : B -> A -> outcome X B) (l : list A) (b : B) : outcome X B :=
  match l with [] => Ok b | a :: l' => let* b' := f b a in fold_res f l' b' end.
(** [assert!] / a condition whose failure returns the error [x]. *)
Definition guard {X} (b : bool) (x : X) : outcome X unit := if b then Ok tt else Err x.
Definition assert_p {X} (b : bool) : outcome X unit := if b then Ok tt else Panic.
(** [unwrap] *)
Definition expect {X A} (o : option A) : outcome X A := match o with Some a => Ok a | None => Panic end.
(** [v[a..b]] *)
Definition slice {X A} (l : list A) (a b : nat) : outcome X (list A) :=
  if (b <? a)%nat || (length l <? b)%nat then Panic else Ok (firstn (b - a) (skipn a l)).
Definition is_some {A} (o : option A) : bool := match o with Some _ => true | None => false end.

(** constants.rs:24-27 *)
Definition domain_size_ratio (n nw : nat) : nat := (nw * (n + 1) + 2) / n + 1.
(** prover.rs:1102-1105 *)
Definition quotient_polynomial_degree (n nw : nat) : nat := nw * (n + 1) + 2.

Section Plonk.
  Variable K : fld.
  Local Open Scope fld_scope.
  Notation pol := (list K).
  Notation Dom := (dom K).
  Notation circuit := (circuit K).

  (** [x.inverse().unwrap()] and division: panics on zero. *)
  Definition finvp (x : K) : outcome perr K := if feqb x 0 then Panic else Ok (finv x).

  (** ** lagrange.rs; a domain with coset offset [h] *)

  (** [evaluate_vanishing_polynomial] (ark_poly) *)
  Definition vanish_at (d : Dom) (h tau : K) : K := fpow tau (dsize d) - fpow h (dsize d).
  (** lagrange.rs:42-61 *)
  Definition first_lagrange_coeff (d : Dom) (h tau : K) : outcome perr K :=
    if feqb tau h then Ok 1
    else
      let z := vanish_at d h tau in
      if feqb z 0 then Ok 0
      else
        let* hi := finvp h in
        let* di := finvp (fnat (dsize d) * (fpow h (dsize d) * hi) * (tau - h)) in
        Ok (z * di).
  (** lagrange.rs:65-84 *)
  Definition last_lagrange_coeff (d : Dom) (h tau : K) : outcome perr K :=
    let gi := finv (dgen d) in
    if feqb tau (gi * h) then Ok 1
    else
      let z := vanish_at d h tau in
      if feqb z 0 then Ok 0
      else
        let* hi := finvp h in
        let* di := finvp (fnat (dsize d) * (fpow h (dsize d) * hi) * (tau - h * gi)) in
        Ok (z * gi * di).
  (** lagrange.rs:88-114 *)
  Definition first_and_last_lagrange_coeffs (d : Dom) (h tau : K) : outcome perr (K * K) :=
    let gi := finv (dgen d) in
    if feqb tau h then Ok (1, 0)
    else if feqb tau (gi * h) then Ok (0, 1)
    else
      let z := vanish_at d h tau in
      if feqb z 0 then Ok (0, 0)
      else
        let* hi := finvp h in
        let* d1 := finvp (fnat (dsize d) * (fpow h (dsize d) * hi) * (tau - h)) in
        let* dn := finvp (fnat (dsize d) * (fpow h (dsize d) * hi) * (tau - h * gi)) in
        Ok (z * d1, z * gi * dn).
  (** lagrange.rs:135-142 *)
  Fixpoint unit_at (tau cur g : K) (k : nat) : list K :=
    match k with
    | 0%nat => []
    | S k' => if feqb cur tau then 1 :: repeat 0 k' else 0 :: unit_at tau (cur * g) g k'
    end.
  (** lagrange.rs:160-170 *)
  Fixpoint lag_invs (tau l neg g gi : K) (k : nat) : list K :=
    match k with
    | 0%nat => []
    | S k' => l * (tau + neg) :: lag_invs tau (l * gi) (neg * g) g gi k'
    end.
  (** lagrange.rs:120-174.  [batch_inversion] leaves zeros in place. *)
  Definition lagrange_coeffs_for_range (d : Dom) (h : K) (start stop : nat) (tau : K) : outcome perr (list K) :=
    if (dsize d <? stop)%nat then Panic
    else if (stop <? start)%nat then Panic
    else
      let size := (stop - start)%nat in
      let z := vanish_at d h tau in
      let gs := fpow (dgen d) start in
      if feqb z 0 then Ok (unit_at tau (h * gs) (dgen d) size)
      else
        let gi := finv (dgen d) in
        let* hi := finvp h in
        let* zi := finvp z in
        let l0 := zi * (fnat (dsize d) * fpow h (dsize d) * hi) * fpow gi start in
        Ok (map (fun x => if feqb x 0 then 0 else finv x) (lag_invs tau l0 (- h * gs) (dgen d) gi size)).

  (** ** Keys, proofs, challenges (structs.rs) *)
  Variables V1 V2 VT : vsp K.
  Variable e : pairing K V1 V2 VT.
  Notation open_key := (vparam K V1 V2).

  (** structs.rs:732-748 *)
  Record plookup_vk := mk_plookup_vk {
    lv_range : V1; lv_key : V1; lv_table_dom_sep : V1; lv_q_dom_sep : V1 }.
  (** structs.rs:643-672 *)
  Record vkey := mk_vkey {
    vk_n : nat; vk_inputs : nat; vk_sigmas : list V1; vk_selectors : list V1;
    vk_k : list K; vk_open : open_key; vk_merged : bool; vk_plookup : option plookup_vk }.
  (** structs.rs:559-573 *)
  Record plookup_pk := mk_plookup_pk {
    lp_range : pol; lp_key : pol; lp_table_dom_sep : pol; lp_q_dom_sep : pol }.
  (** structs.rs:538-556; [pk_ck] is the commitment key's list of powers. *)
  Record pkey := mk_pkey {
    pk_sigmas : list pol; pk_selectors : list pol; pk_ck : list V1; pk_vk : vkey; pk_plookup : option plookup_pk }.
  (** structs.rs:388-399 *)
  Record proof_evals := mk_pe { wires_evals : list K; sigma_evals : list K; perm_next_eval : K }.
  (** structs.rs:458-505 *)
  Record plookup_evals := mk_ple {
    range_table_eval : K; key_table_eval : K; table_dom_sep_eval : K; q_dom_sep_eval : K;
    h1_eval : K; q_lookup_eval : K; prod_next_eval : K;
    range_table_next_eval : K; key_table_next_eval : K; table_dom_sep_next_eval : K;
    h1_next_eval : K; h2_next_eval : K; q_lookup_next_eval : K; w3_next_eval : K; w4_next_eval : K }.
  (** structs.rs:509-518 *)
  Definition evals_vec (x : plookup_evals) : list K :=
    [range_table_eval x; key_table_eval x; h1_eval x; q_lookup_eval x; table_dom_sep_eval x; q_dom_sep_eval x].
  (** structs.rs:521-533 *)
  Definition next_evals_vec (x : plookup_evals) : list K :=
    [prod_next_eval x; range_table_next_eval x; key_table_next_eval x; h1_next_eval x; h2_next_eval x;
     q_lookup_next_eval x; w3_next_eval x; w4_next_eval x; table_dom_sep_next_eval x].
  (** structs.rs:210-220 *)
  Record plookup_proof := mk_plp { lk_h_comms : list V1; lk_prod_comm : V1; lk_evals : plookup_evals }.
  (** structs.rs:224-249 *)
  Record batch_proof := mk_bp {
    bp_wires : list (list V1); bp_perms : list V1; bp_evals : list proof_evals;
    bp_plookups : list (option plookup_proof); bp_quots : list V1; bp_open : V1; bp_shifted : V1 }.
  (** structs.rs:252-255 *)
  Definition bp_len (b : batch_proof) : nat := length (bp_perms b).
  (** structs.rs:51-75 *)
  Record proof := mk_proof {
    pf_wires : list V1; pf_perm : V1; pf_quots : list V1; pf_open : V1; pf_shifted : V1;
    pf_evals : proof_evals; pf_plookup : option plookup_proof }.
  (** structs.rs:276-288 *)
  Definition batch_of_proof (p : proof) : batch_proof :=
    mk_bp [pf_wires p] [pf_perm p] [pf_evals p] [pf_plookup p] (pf_quots p) (pf_open p) (pf_shifted p).
  (** structs.rs:856-864 *)
  Record challenges := mk_ch {
    ch_tau : option K; ch_alpha : K; ch_beta : K; ch_gamma : K; ch_zeta : K; ch_v : K; ch_u : K }.
  (** structs.rs:868-880 *)
  Record oracles := mk_or {
    or_wires : list pol; or_pi : pol; or_z : pol; or_h : list pol; or_prod : pol }.

  (** structs.rs:923-937 *)
  Definition eval_merged_table (tau range key q_lookup w3 w4 tds : K) : K :=
    range + q_lookup * tau * (tds + tau * (key + tau * (w3 + tau * w4))).
  (** structs.rs:940-954 *)
  Definition eval_merged_lookup_witness (tau w_range w0 w1 w2 q_lookup q_dom_sep : K) : K :=
    w_range + q_lookup * tau * (q_dom_sep + tau * (w0 + tau * (w1 + tau * w2))).

  (** structs.rs:884-920: the hash map as an association list; the order of
      iteration only permutes the terms of the sum. *)
  Fixpoint sb_push (s : K) (b : V1) (m : list (V1 * K)) : list (V1 * K) :=
    match m with
    | [] => [(b, 0 + s)]
    | (b', s') :: m' => if veqb b' b then (b', s' + s) :: m' else (b', s') :: sb_push s b m'
    end.
  Definition sb_pushes (l : list (K * V1)) (m : list (V1 * K)) : list (V1 * K) :=
    fold_left (fun m sb => sb_push (fst sb) (snd sb) m) l m.
  Definition sb_merge (c : K) (other m : list (V1 * K)) : list (V1 * K) :=
    fold_left (fun m bs => sb_push (c * snd bs) (fst bs) m) other m.
  Definition sb_msm (m : list (V1 * K)) : V1 := vsum (map (fun bs => vmul (snd bs) (fst bs)) m).

  (** structs.rs:582-592 *)
  Definition q_lookup_poly (pk : pkey) : outcome perr pol :=
    let* _ := guard (is_some (pk_plookup pk)) SnarkLookupUnsupported in
    index (rev (pk_selectors pk)) 0.
  (** structs.rs:841-847 *)
  Definition q_lookup_comm (vk : vkey) : outcome perr V1 :=
    let* _ := guard (is_some (vk_plookup vk)) SnarkLookupUnsupported in
    index (rev (vk_selectors vk)) 0.
  (** structs.rs:788-838 *)
  Definition vk_merge (a b : vkey) : outcome perr vkey :=
    if vk_merged a || vk_merged b then Err ParamError
    else if negb (vk_n a =? vk_n b)%nat then Err ParamError
    else if negb (vk_inputs a =? vk_inputs b)%nat then Err ParamError
    else if is_some (vk_plookup a) || is_some (vk_plookup b) then Err ParamError
    else Ok (mk_vkey (vk_n a) (vk_inputs a + vk_inputs b)
               (map (fun xy => vadd (fst xy) (snd xy)) (combine (vk_sigmas a) (vk_sigmas b)))
               (map (fun xy => vadd (fst xy) (snd xy)) (combine (vk_selectors a) (vk_selectors b)))
               (vk_k a) (vk_open a) true None).
  (** structs.rs:600-638 *)
  Definition pk_merge (a b : pkey) : outcome perr pkey :=
    if negb (vk_n (pk_vk a) =? vk_n (pk_vk b))%nat then Err ParamError
    else if negb (vk_inputs (pk_vk a) =? vk_inputs (pk_vk b))%nat then Err ParamError
    else if is_some (pk_plookup a) || is_some (pk_plookup b) then Err ParamError
    else
      let* vk := vk_merge (pk_vk a) (pk_vk b) in
      Ok (mk_pkey (map (fun xy => paddp K (fst xy) (snd xy)) (combine (pk_sigmas a) (pk_sigmas b)))
            (map (fun xy => paddp K (fst xy) (snd xy)) (combine (pk_selectors a) (pk_selectors b)))
            (pk_ck a) vk None).

  (** ** Transcripts (transcript/mod.rs:32-184): the methods a transcript
      implementation provides. *)
  Record transcript := mk_transcript {
    tstate : Type;
    t_new : string -> tstate;
    t_message : tstate -> string -> list nat -> outcome perr tstate;
    t_vk_pi : tstate -> vkey -> list K -> outcome perr tstate;
    t_commitment : tstate -> string -> V1 -> outcome perr tstate;
    t_field : tstate -> string -> K -> outcome perr tstate;
    t_challenge : tstate -> string -> outcome perr (K * tstate) }.

  Variable T : transcript.
  Local Open Scope string_scope.
  Local Open Scope list_scope.
  Local Open Scope fld_scope.
  (** transcript/mod.rs:83-97 *)
  Definition t_commitments (s : tstate T) (l : string) (cs : list V1) : outcome perr (tstate T) :=
    fold_res (fun s c => t_commitment T s l c) cs s.
  (** transcript/mod.rs:125-138 *)
  Definition t_fields (s : tstate T) (l : string) (xs : list K) : outcome perr (tstate T) :=
    fold_res (fun s x => t_field T s l x) xs s.
  (** transcript/mod.rs:141-148 *)
  Definition t_evals (s : tstate T) (x : proof_evals) : outcome perr (tstate T) :=
    let* s := t_fields s "wire_evals" (wires_evals x) in
    let* s := t_fields s "wire_sigma_evals" (sigma_evals x) in
    t_field T s "perm_next_eval" (perm_next_eval x).
  (** transcript/mod.rs:151-157 *)
  Definition t_plookup_evals (s : tstate T) (x : plookup_evals) : outcome perr (tstate T) :=
    let* s := t_fields s "plookup_evals" (evals_vec x) in
    t_fields s "plookup_next_evals" (next_evals_vec x).
  (** snark.rs:230-236, verifier.rs:276-282; the label is constants.rs:17 *)
  Definition t_start (extra : option (list nat)) (l : list (vkey * list K)) : outcome perr (tstate T) :=
    let s := t_new T "PlonkProof" in
    let* s := match extra with Some m => t_message T s "extra info" m | None => Ok s end in
    fold_res (fun s vp => t_vk_pi T s (fst vp) (snd vp)) l s.

  (** ** Fields with two-adic structure: [F::TWO_ADICITY], [F::TWO_ADIC_ROOT_OF_UNITY],
      [F::GENERATOR]; the stream of constants.rs:31's seeded generator *)
  Variable two_adicity : nat.
  Variable two_adic_root : K.
  Variable fgen : K.
  Variable coset_rnd : list K.
  Notation radix2 := (radix2_new K two_adicity two_adic_root).
  Notation KV := (self_vsp K).

  (** [coset.ifft] (ark_poly): the inverse transform followed by scaling with the
      powers of the inverse offset *)
  Definition coset_ifft (h : K) (d : Dom) (l : list K) : list K :=
    map (fun jc => fpow (finv h) (fst jc) * snd jc) (combine (seq 0 (dsize d)) (ifft K KV d l)).
  (** [DensePolynomial::from_coefficients_vec(domain.ifft(l))] *)
  Definition ipoly (d : Dom) (l : list K) : pol := pnorm K (ifft K KV d l).

  (** ** Polynomials of a circuit (constraint_system.rs) *)

  (** constraint_system.rs:1353-1356, with the domain itself; the domain stored in a
      finalized circuit was built by [Radix2EvaluationDomain::new] *)
  Definition eval_domain (c : circuit) : outcome perr Dom :=
    if is_finalized c then expect (radix2 (domain c)) else Err (CircErr UnfinalizedCircuit).
  (** relation/src/constants.rs:29-81 as used by constraint_system.rs:1116-1127 and snark.rs:556 *)
  Definition coset_ks (nw n : nat) : outcome perr (list K) :=
    match compute_coset_representatives K nw n coset_rnd with Some r => lift_c r | None => Panic end.
  (** constraint_system.rs:1093-1108 *)
  Definition all_selectors (c : circuit) : list (list K) :=
    map (fun f => map f (gates c))
      ([q_lc0; q_lc1; q_lc2; q_lc3; q_mul0; q_mul1; q_hash0; q_hash1; q_hash2; q_hash3; q_o; q_c; q_ecc]
       ++ if support_lookup c then [q_lookup] else []).
  (** constraint_system.rs:1358-1372 *)
  Definition compute_selector_polynomials (c : circuit) : outcome perr (list pol) :=
    let* d := eval_domain c in
    let* _ := guard (num_gates c <=? dsize d)%nat (CircErr ParameterError) in
    Ok (map (ipoly d) (all_selectors c)).
  (** constraint_system.rs:1135-1161; [ids] is the extended identity permutation *)
  Definition compute_extended_permutation (c : circuit) (ids : list K) (n : nat) : outcome perr (list K) :=
    let* l := map_res (fun s => if (num_wire_types c <=? fst s)%nat then Ok 0 else index ids (fst s * n + snd s)%nat)
                (wire_perm c) in
    let* _ := guard (length l =? num_wire_types c * n)%nat (CircErr ParameterError) in
    Ok l.
  (** constraint_system.rs:1116-1127: the stored extended identity permutation *)
  Definition ext_ids (c : circuit) (d : Dom) : outcome perr (list K) :=
    let* ks := coset_ks (num_wire_types c) (dsize d) in
    Ok (ext_id K ks (dgen d) (dsize d)).
  (** constraint_system.rs:1374-1392 *)
  Definition compute_extended_permutation_polynomials (c : circuit) : outcome perr (list pol) :=
    let* d := eval_domain c in
    let* ids := ext_ids c d in
    let* l := compute_extended_permutation c ids (dsize d) in
    map_res (fun i => let* s := slice l (i * dsize d) ((i + 1) * dsize d) in Ok (ipoly d s))
      (seq 0 (num_wire_types c)).
  (** constraint_system.rs:1394-1422: the division panics on a zero denominator *)
  Definition compute_prod_permutation_polynomial (c : circuit) (beta gamma : K) : outcome perr pol :=
    let* d := eval_domain c in
    let* ids := ext_ids c d in
    let n := dsize d in
    let val := fun i j => nth (wire_variable c i j) (witness c) 0 in
    let* _ := assert_p (forallb (fun j => negb (feqb
                 (perm_den K (num_wire_types c) n val ids (wire_perm c) beta gamma j) 0)) (seq 0 (n - 1))) in
    Ok (ipoly d (compute_prod_permutation K c ids beta gamma)).
  (** constraint_system.rs:1424-1448 *)
  Definition compute_wire_polynomials (c : circuit) : outcome perr (list pol) :=
    let* d := eval_domain c in
    let* _ := guard (num_gates c <=? dsize d)%nat (CircErr ParameterError) in
    map_res (fun col => let* l := map_res (index (witness c)) col in Ok (ipoly d l)) (wire_cols K c).
  (** constraint_system.rs:1450-1462 *)
  Definition compute_pub_input_polynomial (c : circuit) : outcome perr pol :=
    let* d := eval_domain c in Ok (ipoly d (pub_input_vec K c)).
  (** constraint_system.rs:1466-1472 *)
  Definition compute_range_table_polynomial (c : circuit) : outcome perr pol :=
    let* rt := lift_c (range_table K c) in
    let* d := eval_domain c in
    Ok (ipoly d rt).
  (** constraint_system.rs:1474-1499: key table, table and lookup domain separation *)
  Definition compute_gate_column_polynomial (f : gate K -> K) (c : circuit) : outcome perr pol :=
    let* _ := guard (support_lookup c) (CircErr WrongPlonkType) in
    let* d := eval_domain c in
    Ok (ipoly d (map f (gates c))).
  (** constraint_system.rs:1501-1520 *)
  Definition compute_merged_lookup_table (c : circuit) (tau : K) : outcome perr (list K) :=
    let* rt := lift_c (range_table K c) in Ok (merged_table K c tau rt).
  (** constraint_system.rs:1570-1622 *)
  Definition compute_lookup_sorted_vec_polynomials (c : circuit) (tau : K) (table : list K) :
      outcome perr (list K * pol * pol) :=
    let* _ := guard (support_lookup c) (CircErr WrongPlonkType) in
    let* d := eval_domain c in
    let n := dsize d in
    let* _ := guard (n =? length (range_col c))%nat (CircErr ParameterError) in
    let* _ := guard (n =? length table)%nat (CircErr ParameterError) in
    let* s := lift_c (lookup_sorted_vec K n table (lookup_values K c tau)) in
    Ok (s, ipoly d (firstn n s), ipoly d (skipn (n - 1) s)).
  (** constraint_system.rs:1522-1568 *)
  Definition compute_lookup_prod_polynomial (c : circuit) (tau beta gamma : K) (table s : list K) : outcome perr pol :=
    let* _ := guard (support_lookup c) (CircErr WrongPlonkType) in
    let* d := eval_domain c in
    let n := dsize d in
    let* _ := guard (n =? length (range_col c))%nat (CircErr ParameterError) in
    let* _ := guard (n =? length table)%nat (CircErr ParameterError) in
    let* _ := guard (2 * n - 1 =? length s)%nat (CircErr ParameterError) in
    let* _ := assert_p (2 <=? n)%nat in
    let* _ := assert_p (forallb (fun j => negb (feqb (lookup_den K n s beta gamma j) 0)) (seq 0 (n - 2))) in
    Ok (ipoly d (lookup_prod_vec K n table (lookup_values K c tau) s beta gamma)).

  (** ** Prover *)

  (** What the prover draws: [rnd_wire i j k] the [k]-th mask coefficient of wire [j] of
      instance [i], then the masks of the sorted vectors' polynomials, of the two
      product polynomials, and the splitting randomizers. *)
  Record randomness := mk_rnd {
    rnd_wire : nat -> nat -> nat -> K; rnd_h1 : nat -> nat -> K; rnd_h2 : nat -> nat -> K;
    rnd_z : nat -> nat -> K; rnd_prod : nat -> nat -> K; rnd_split : nat -> K }.

  (** prover.rs:43-46 *)
  Record prover := mk_prover { pr_dom : Dom; pr_quot : Dom }.
  (** prover.rs:54-66.  [GeneralEvaluationDomain::new] falls back to a mixed-radix domain
      for fields with a small subgroup; that case is not modelled. *)
  Definition prover_new (n nw : nat) : outcome perr prover :=
    match radix2 n, radix2 (n * domain_size_ratio n nw) with
    | Some d, Some q => Ok (mk_prover d q)
    | _, _ => Err DomainCreationError
    end.

  (** [DensePolynomial::rand(bound, rng)] and [mul_by_vanishing_poly] (ark_poly) *)
  Definition rand_poly (f : nat -> K) (bound : nat) : pol := pnorm K (map f (seq 0 (bound + 1))).
  Definition mul_by_vanishing (n : nat) (p : pol) : pol := pnorm K (psub (repeat 0 n ++ p) p).
  (** prover.rs:455-464 *)
  Definition mask_polynomial (d : Dom) (f : nat -> K) (p : pol) (bound : nat) : pol :=
    paddp K (mul_by_vanishing (dsize d) (rand_poly f bound)) p.
  (** prover.rs:1090-1099 *)
  Definition mul_poly (p : pol) (c : K) : pol := pnorm K (pscale c p).

  (** prover.rs:75-90 *)
  Definition run_1st_round (pr : prover) (rnd : randomness) (i : nat) (ck : list V1) (c : circuit) :
      outcome perr (list V1 * list pol * pol) :=
    let* ws := compute_wire_polynomials c in
    let ws := map (fun jp => mask_polynomial (pr_dom pr) (rnd_wire rnd i (fst jp)) (snd jp) 1)
                (combine (seq 0 (length ws)) ws) in
    let* cs := lift_pcs (batch_commit K V1 ck ws) in
    let* pi := compute_pub_input_polynomial c in
    Ok (cs, ws, pi).
  (** prover.rs:98-128 *)
  Definition run_plookup_1st_round (pr : prover) (rnd : randomness) (i : nat) (ck : list V1) (c : circuit) (tau : K) :
      outcome perr (list V1 * list pol * list K * list K) :=
    let* table := compute_merged_lookup_table c tau in
    let* shh := compute_lookup_sorted_vec_polynomials c tau table in
    let '(s, h1, h2) := shh in
    let hs := [mask_polynomial (pr_dom pr) (rnd_h1 rnd i) h1 2; mask_polynomial (pr_dom pr) (rnd_h2 rnd i) h2 2] in
    let* cs := lift_pcs (batch_commit K V1 ck hs) in
    Ok (cs, hs, s, table).
  (** prover.rs:132-146 *)
  Definition run_2nd_round (pr : prover) (rnd : randomness) (i : nat) (ck : list V1) (c : circuit) (beta gamma : K) :
      outcome perr (V1 * pol) :=
    let* z := compute_prod_permutation_polynomial c beta gamma in
    let z := mask_polynomial (pr_dom pr) (rnd_z rnd i) z 2 in
    let* cm := lift_pcs (commit K V1 ck z) in
    Ok (cm, z).
  (** prover.rs:151-183 *)
  Definition run_plookup_2nd_round (pr : prover) (rnd : randomness) (i : nat) (ck : list V1) (c : circuit)
      (tau : option K) (beta gamma : K) (table sorted : option (list K)) : outcome perr (V1 * pol) :=
    let* _ := guard (is_some sorted) ParamError in
    let* tau := expect tau in
    let* table := expect table in
    let* sorted := expect sorted in
    let* p := compute_lookup_prod_polynomial c tau beta gamma table sorted in
    let p := mask_polynomial (pr_dom pr) (rnd_prod rnd i) p 2 in
    let* cm := lift_pcs (commit K V1 ck p) in
    Ok (cm, p).

  (** prover.rs:660-698: [sel] and [w] are the values at one point *)
  Definition quot_circuit (w : list K) (pi : K) (sel : list K) : K :=
    let q := fun j => nth j sel 0 in
    let w := fun j => nth j w 0 in
    q 11%nat + pi + q 0%nat * w 0%nat + q 1%nat * w 1%nat + q 2%nat * w 2%nat + q 3%nat * w 3%nat
    + q 4%nat * w 0%nat * w 1%nat + q 5%nat * w 2%nat * w 3%nat
    + q 12%nat * w 0%nat * w 1%nat * w 2%nat * w 3%nat * w 4%nat
    + q 6%nat * fpow (w 0%nat) 5 + q 7%nat * fpow (w 1%nat) 5
    + q 8%nat * fpow (w 2%nat) 5 + q 9%nat * fpow (w 3%nat) 5 - q 10%nat * w 4%nat.
  (** prover.rs:700-756 *)
  Definition quot_perm (n : nat) (x : K) (ks w : list K) (z zw : K) (ch : challenges) (sig : list K) : outcome perr (K * K) :=
    let r1 := ch_alpha ch * fold_left (fun acc wk => acc * (fst wk + snd wk * x * ch_beta ch + ch_gamma ch)) (combine w ks) z
              - ch_alpha ch * fold_left (fun acc ws => acc * (fst ws + snd ws * ch_beta ch + ch_gamma ch)) (combine w sig) zw in
    let* di := finvp (fnat n * (x - 1)) in
    Ok (r1, ch_alpha ch * ch_alpha ch * (z - 1) * di).
  (** prover.rs:772-877: [h1 h1w h2 h2w p pw rt rtw kt ktw tds tdsw ql qlw qds] are the
      values of the polynomials at the point [x] and at [x * g] *)
  Definition quot_lookup (d : Dom) (x : K) (w w_next : list K) (h1 h1w h2 h2w p pw rt rtw kt ktw tds tdsw ql qlw qds : K)
      (ch : challenges) : outcome perr (K * K) :=
    let vanish := vanish_at d 1 x in
    let* ll := first_and_last_lagrange_coeffs d 1 x in
    let* vi := finvp vanish in
    let l1 := fst ll * vi in
    let ln := snd ll * vi in
    let* tau := expect (ch_tau ch) in
    let w_ := fun j => nth j w 0 in
    let wn := fun j => nth j w_next 0 in
    let table := eval_merged_table tau rt kt ql (w_ 3%nat) (w_ 4%nat) tds in
    let table_w := eval_merged_table tau rtw ktw qlw (wn 3%nat) (wn 4%nat) tdsw in
    let lookup := eval_merged_lookup_witness tau (w_ 5%nat) (w_ 0%nat) (w_ 1%nat) (w_ 2%nat) ql qds in
    let a := ch_alpha ch in let beta := ch_beta ch in let gamma := ch_gamma ch in
    let a3 := a * a * a in
    let r2 := a3 * ((h1 - h2w) * ln) in
    let a4 := a3 * a in
    let r2 := r2 + a4 * ((p - 1) * l1) in
    let a5 := a4 * a in
    let r2 := r2 + a5 * ((p - 1) * ln) in
    let a6 := a5 * a in
    let b1 := 1 + beta in
    let gb1 := b1 * gamma in
    let p3 := (x - finv (dgen d))
              * (p * b1 * (gamma + lookup) * (gb1 + table + beta * table_w)
                 - pw * (gb1 + h1 + beta * h1w) * (gb1 + h2 + beta * h2w)) in
    Ok (a6 * p3, r2).

  (** prover.rs:527-646: the coset evaluations of one instance's share of the quotient.
      Short selector, sigma, wire or [k] lists make the code index out of bounds. *)
  Definition quot_instance (pr : prover) (ch : challenges) (zinv : list K) (nw : nat) (oc : oracles) (pk : pkey) :
      outcome perr (list K) :=
    let d := pr_dom pr in let qd := pr_quot pr in
    let n := dsize d in let m := dsize qd in
    let ratio := (m / n)%nat in
    let cf := fft_coset K KV fgen qd in
    let* _ := assert_p ((13 <=? length (pk_selectors pk)) && (nw <=? length (pk_sigmas pk))
                        && (nw <=? length (vk_k (pk_vk pk))) && (nw <=? length (or_wires oc)))%nat in
    let sel := map cf (pk_selectors pk) in
    let sig := map cf (firstn nw (pk_sigmas pk)) in
    let ws := map cf (firstn nw (or_wires oc)) in
    let z := cf (or_z oc) in
    let pi := cf (or_pi oc) in
    let h1 := cf (nth 0 (or_h oc) []) in let h2 := cf (nth 1 (or_h oc) []) in
    let p := cf (or_prod oc) in
    let ql := last sel [] in
    let lk := match pk_plookup pk with
              | None => None
              | Some lp => Some (cf (lp_range lp), cf (lp_key lp), cf (lp_table_dom_sep lp), cf (lp_q_dom_sep lp))
              end in
    map_res (fun i =>
        let j := ((i + ratio) mod m)%nat in
        let x := dom_element K qd i * fgen in
        let at_ := fun k (l : list K) => nth k l 0 in
        let w := map (at_ i) ws in
        let tc := quot_circuit w (at_ i pi) (map (at_ i) sel) in
        let* tp := quot_perm (vk_n (pk_vk pk)) x (vk_k (pk_vk pk)) w (at_ i z) (at_ j z) ch (map (at_ i) sig) in
        let* tl := match lk with
                   | None => Ok (0, 0)
                   | Some (rt, kt, tds, qds) =>
                       let* _ := assert_p ((length (or_h oc) =? 2) && (6 <=? nw))%nat in
                       quot_lookup d x w (map (at_ j) ws) (at_ i h1) (at_ j h1) (at_ i h2) (at_ j h2)
                         (at_ i p) (at_ j p) (at_ i rt) (at_ j rt) (at_ i kt) (at_ j kt) (at_ i tds) (at_ j tds)
                         (at_ i ql) (at_ j ql) (at_ i qds) ch
                   end in
        Ok ((tc + fst tp + fst tl) * nth (i mod ratio) zinv 0 + (snd tp + snd tl)))
      (seq 0 m).
  (** The powers of alpha the prover combines the instances with (prover.rs:650-656,
      snark.rs:373-377). *)
  Definition next_alpha_base (ch : challenges) (lookup : bool) (ab : K) : K :=
    let a := ch_alpha ch in
    let a3 := a * a * a in
    let a7 := a3 * a3 * a in
    if lookup then ab * a7 else ab * a3.
  Definition vec_add_scaled (a : K) (l l' : list K) : list K :=
    map (fun xy => fst xy + a * snd xy) (combine l l').
  (** prover.rs:492-659 *)
  Definition compute_quotient_polynomial (pr : prover) (ch : challenges) (pks : list pkey) (ocs : list oracles) (nw : nat) :
      outcome perr pol :=
    if (length pks =? 0)%nat || negb (length pks =? length ocs)%nat then Err ParamError
    else
      let n := dsize (pr_dom pr) in let m := dsize (pr_quot pr) in
      let* zinv := map_res (fun i => finvp (fpow (fgen * dom_element K (pr_quot pr) i) n - 1)) (seq 0 (m / n)) in
      let* r := fold_res (fun st op =>
                   let* l := quot_instance pr ch zinv nw (fst op) (snd op) in
                   Ok (vec_add_scaled (snd st) (fst st) l,
                       next_alpha_base ch (is_some (pk_plookup (snd op))) (snd st)))
                 (combine ocs pks) (repeat 0 m, 1) in
      Ok (pnorm K (coset_ifft fgen (pr_quot pr) (fst r))).

  (** prover.rs:921-933: the masking loop over the lower splitting polynomials; returns
      them with the last randomizer *)
  Definition sub_head (p : pol) (b : K) : outcome perr pol :=
    match p with [] => Panic | c :: p' => Ok (c - b :: p') end.
  Fixpoint mask_split (n : nat) (rs : nat -> K) (i : nat) (lastr : K) (ps : list pol) : outcome perr (list pol * K) :=
    match ps with
    | [] => Ok ([], lastr)
    | p :: ps' =>
        let now := rs i in
        let* p := sub_head p lastr in
        let* dg := lift_pcs (degree K p) in
        let* _ := assert_p (dg =? n + 1)%nat in
        let* r := mask_split n rs (S i) now ps' in
        Ok ((p ++ [now]) :: fst r, snd r)
    end.
  (** prover.rs:889-943 *)
  Definition split_quotient_polynomial (pr : prover) (rs : nat -> K) (q : pol) (nw : nat) : outcome perr (list pol) :=
    let n := dsize (pr_dom pr) in
    let* dg := lift_pcs (degree K q) in
    if negb (dg =? quotient_polynomial_degree n nw)%nat
    then Err (WrongQuotientPolyDegree dg (quotient_polynomial_degree n nw))
    else
      let* ps := map_res (fun i =>
                     let stop := if (i <? nw - 1)%nat then ((i + 1) * (n + 2))%nat else (dg + 1)%nat in
                     let* s := slice q (i * (n + 2)) stop in Ok (pnorm K s)) (seq 0 nw) in
      let* lows := mask_split n rs 0 0 (firstn (nw - 1) ps) in
      let* top := index ps (nw - 1) in
      let* top := sub_head top (snd lows) in
      Ok (fst lows ++ [top]).
  (** prover.rs:188-205 *)
  Definition run_3rd_round (pr : prover) (rnd : randomness) (ck : list V1) (pks : list pkey) (ch : challenges)
      (ocs : list oracles) (nw : nat) : outcome perr (list V1 * list pol) :=
    let* q := compute_quotient_polynomial pr ch pks ocs nw in
    let* ps := split_quotient_polynomial pr (rnd_split rnd) q nw in
    let* cs := lift_pcs (batch_commit K V1 ck ps) in
    Ok (cs, ps).

  (** prover.rs:212-239 *)
  Definition compute_evaluations (pr : prover) (pk : pkey) (zeta : K) (oc : oracles) (nw : nat) : proof_evals :=
    mk_pe (map (fun p => peval p zeta) (or_wires oc))
          (map (fun p => peval p zeta) (firstn (nw - 1) (pk_sigmas pk)))
          (peval (or_z oc) (zeta * dgen (pr_dom pr))).
  (** prover.rs:243-309 *)
  Definition compute_plookup_evaluations (pr : prover) (pk : pkey) (zeta : K) (oc : oracles) : outcome perr plookup_evals :=
    match pk_plookup pk with
    | None => Err ParamError
    | Some lp =>
        if negb (length (or_h oc) =? 2)%nat then Err ParamError
        else
          let* h1 := index (or_h oc) 0 in
          let* h2 := index (or_h oc) 1 in
          let* ql := q_lookup_poly pk in
          let* w3 := index (or_wires oc) 3 in
          let* w4 := index (or_wires oc) 4 in
          let zg := zeta * dgen (pr_dom pr) in
          Ok (mk_ple (peval (lp_range lp) zeta) (peval (lp_key lp) zeta) (peval (lp_table_dom_sep lp) zeta)
                (peval (lp_q_dom_sep lp) zeta) (peval h1 zeta) (peval ql zeta) (peval (or_prod oc) zg)
                (peval (lp_range lp) zg) (peval (lp_key lp) zg) (peval (lp_table_dom_sep lp) zg)
                (peval h1 zg) (peval h2 zg) (peval ql zg) (peval w3 zg) (peval w4 zg))
    end.

  (** The factors of the selector polynomials in the linearization (prover.rs:968-984,
      verifier.rs:607-622), in the order of the selectors. *)
  Definition selector_scalars (w : list K) : outcome perr (list K) :=
    let* w0 := index w 0 in let* w1 := index w 1 in let* w2 := index w 2 in let* w3 := index w 3 in
    let* w4 := index w 4 in
    Ok [w0; w1; w2; w3; w0 * w1; w2 * w3; fpow w0 5; fpow w1 5; fpow w2 5; fpow w3 5; - w4; 1;
        w0 * w1 * w2 * w3 * w4].
  (** prover.rs:946-985; the code adds the thirteen products in another order *)
  Definition lin_circuit (pk : pkey) (w : list K) : outcome perr pol :=
    let* ss := selector_scalars w in
    let* _ := assert_p (13 <=? length (pk_selectors pk))%nat in
    Ok (fold_left (fun acc sp => paddp K acc (mul_poly (snd sp) (fst sp))) (combine ss (pk_selectors pk)) []).
  (** prover.rs:988-1026 *)
  Definition lin_perm (pr : prover) (pk : pkey) (ch : challenges) (pe : proof_evals) (z : pol) : outcome perr pol :=
    let w := wires_evals pe in
    let* l1 := first_lagrange_coeff (pr_dom pr) 1 (ch_zeta ch) in
    let* _ := assert_p (length w <=? length (vk_k (pk_vk pk)))%nat in
    let cz := fold_left (fun acc wk => acc * (fst wk + ch_beta ch * snd wk * ch_zeta ch + ch_gamma ch))
                (combine w (vk_k (pk_vk pk))) (ch_alpha ch) + ch_alpha ch * ch_alpha ch * l1 in
    let* _ := assert_p (1 <=? length w)%nat in
    let cs := - fold_left (fun acc ws => acc * (fst ws + ch_beta ch * snd ws + ch_gamma ch))
                (combine (firstn (length w - 1) w) (sigma_evals pe)) (ch_alpha ch * ch_beta ch * perm_next_eval pe) in
    let* sg := index (pk_sigmas pk) (length w - 1) in
    Ok (paddp K (mul_poly z cz) (mul_poly sg cs)).
  (** prover.rs:1029-1087 *)
  Definition lin_lookup (pr : prover) (ch : challenges) (w : list K) (le : plookup_evals) (oc : oracles) : outcome perr pol :=
    let* ll := first_and_last_lagrange_coeffs (pr_dom pr) 1 (ch_zeta ch) in
    let* tau := expect (ch_tau ch) in
    let* w0 := index w 0 in let* w1 := index w 1 in let* w2 := index w 2 in let* w3 := index w 3 in
    let* w4 := index w 4 in let* w5 := index w 5 in
    let a := ch_alpha ch in
    let a2 := a * a in let a4 := a2 * a2 in let a5 := a4 * a in let a6 := a4 * a2 in
    let table := eval_merged_table tau (range_table_eval le) (key_table_eval le) (q_lookup_eval le) w3 w4 (table_dom_sep_eval le) in
    let table_w := eval_merged_table tau (range_table_next_eval le) (key_table_next_eval le) (q_lookup_next_eval le)
                     (w3_next_eval le) (w4_next_eval le) (table_dom_sep_next_eval le) in
    let lookup := eval_merged_lookup_witness tau w5 w0 w1 w2 (q_lookup_eval le) (q_dom_sep_eval le) in
    let b1 := 1 + ch_beta ch in
    let zg := ch_zeta ch - finv (dgen (pr_dom pr)) in
    let c1 := a4 * fst ll + a5 * snd ll
              + a6 * zg * b1 * (ch_gamma ch + lookup) * (ch_gamma ch * b1 + table + ch_beta ch * table_w) in
    let c2 := - a6 * zg * prod_next_eval le * (ch_gamma ch * b1 + h1_eval le + ch_beta ch * h1_next_eval le) in
    let* h2 := index (or_h oc) 1 in
    Ok (paddp K (mul_poly (or_prod oc) c1) (mul_poly h2 c2)).
  (** prover.rs:312-347 *)
  Definition lin_instance (pr : prover) (ab : K) (pk : pkey) (ch : challenges) (oc : oracles) (pe : proof_evals)
      (le : option plookup_evals) : outcome perr pol :=
    let* rc := lin_circuit pk (wires_evals pe) in
    let* rp := lin_perm pr pk ch pe (or_z oc) in
    let l := paddp K rc rp in
    let* l := match le with
              | None => Ok l
              | Some le => let* rl := lin_lookup pr ch (wires_evals pe) le oc in Ok (paddp K l rl)
              end in
    Ok (mul_poly l ab).
  (** prover.rs:353-370 *)
  Definition lin_quot (n : nat) (zeta : K) (qs : list pol) : outcome perr pol :=
    let vanish := fpow zeta n - 1 in
    let zn2 := (vanish + 1) * zeta * zeta in
    match qs with
    | [] => Err PIndexError
    | q0 :: qs' =>
        let r := fold_left (fun rc p => let c := snd rc * zn2 in (paddp K (fst rc) (mul_poly p c), c)) qs' (q0, 1) in
        Ok (mul_poly (fst r) (- vanish))
    end.

  (** prover.rs:467-489 *)
  Definition batched_witness (ck : list V1) (ps : list pol) (r x : K) : outcome perr V1 :=
    let b := fst (fold_left (fun ac p => (paddp K (fst ac) (mul_poly p (snd ac)), snd ac * r)) ps ([], 1)) in
    lift_pcs (commit K V1 ck (pquo K b [- x; 1])).
  (** prover.rs:421-436 *)
  Definition plookup_open_polys (oc : oracles) (pk : pkey) (lp : plookup_pk) : outcome perr (list pol) :=
    let* h1 := index (or_h oc) 0 in
    let* ql := q_lookup_poly pk in
    Ok [lp_range lp; lp_key lp; h1; ql; lp_table_dom_sep lp; lp_q_dom_sep lp].
  (** prover.rs:438-453 *)
  Definition plookup_shifted_open_polys (oc : oracles) (pk : pkey) (lp : plookup_pk) : outcome perr (list pol) :=
    let* h1 := index (or_h oc) 0 in
    let* h2 := index (or_h oc) 1 in
    let* ql := q_lookup_poly pk in
    let* w3 := index (or_wires oc) 3 in
    let* w4 := index (or_wires oc) 4 in
    Ok [or_prod oc; lp_range lp; lp_key lp; h1; h2; ql; w3; w4; lp_table_dom_sep lp].
  (** prover.rs:388-404 and 411-420 for one instance *)
  Definition open_polys (oc : oracles) (pk : pkey) : outcome perr (list pol) :=
    let* _ := assert_p (1 <=? length (pk_sigmas pk))%nat in
    let* lk := match pk_plookup pk with
               | Some lp => if (length (or_h oc) =? 2)%nat then plookup_open_polys oc pk lp else Ok []
               | None => Ok []
               end in
    Ok (or_wires oc ++ firstn (length (pk_sigmas pk) - 1) (pk_sigmas pk) ++ lk).
  Definition shifted_open_polys (oc : oracles) (pk : pkey) : outcome perr (list pol) :=
    let* lk := match pk_plookup pk with
               | Some lp => if (length (or_h oc) =? 2)%nat then plookup_shifted_open_polys oc pk lp else Ok []
               | None => Ok []
               end in
    Ok (or_z oc :: lk).
  (** prover.rs:374-432 *)
  Definition compute_opening_proofs (pr : prover) (ck : list V1) (pks : list pkey) (zeta v : K) (ocs : list oracles)
      (lin : pol) : outcome perr (V1 * V1) :=
    if (length pks =? 0)%nat || negb (length pks =? length ocs)%nat then Err ParamError
    else
      let* ps := map_res (fun op => open_polys (fst op) (snd op)) (combine ocs pks) in
      let* w := batched_witness ck (lin :: concat ps) v zeta in
      let* ps' := map_res (fun op => shifted_open_polys (fst op) (snd op)) (combine ocs pks) in
      let* w' := batched_witness ck (concat ps') v (dgen (pr_dom pr) * zeta) in
      Ok (w, w').

  (** ** snark.rs *)

  (** snark.rs:185-226 for one instance *)
  Definition check_instance (n nw : nat) (c : circuit) (pk : pkey) : outcome perr unit :=
    let* d := eval_domain c in
    let* _ := guard (dsize d =? n)%nat ParamError in
    let* _ := guard (vk_n (pk_vk pk) =? n)%nat ParamError in
    let* _ := guard (num_inputs c =? vk_inputs (pk_vk pk))%nat ParamError in
    let* _ := guard (Bool.eqb (support_lookup c) (is_some (pk_plookup pk))) ParamError in
    guard (num_wire_types c =? nw)%nat ParamError.
  (** snark.rs:153-441.  In each round the code alternates, per instance, between
      computing polynomials and appending to the transcript; here the computations of a
      round come first and the appends follow in the same order.  Only the choice between
      two failures of the same round can differ. *)
  Definition batch_prove_internal (rnd : randomness) (cs : list circuit) (pks : list pkey) (extra : option (list nat)) :
      outcome perr (batch_proof * list oracles * challenges) :=
    if (length cs =? 0)%nat then Err ParamError
    else if negb (length cs =? length pks)%nat then Err ParamError
    else
      let k := length cs in
      let* c0 := index cs 0 in
      let* pk0 := index pks 0 in
      let* d0 := eval_domain c0 in
      let n := dsize d0 in
      let nw := num_wire_types c0 in
      let* _ := map_res (fun cp => check_instance n nw (fst cp) (snd cp)) (combine cs pks) in
      let* pis := map_res (fun c => lift_c (public_input c)) cs in
      let* s := t_start extra (combine (map pk_vk pks) pis) in
      let* pr := prover_new n nw in
      (* round 1 *)
      let* r1 := map_res (fun i => let* c := index cs i in let* pk := index pks i in
                                   run_1st_round pr rnd i (pk_ck pk) c) (seq 0 k) in
      let* s := fold_res (fun s r => t_commitments s "witness_poly_comms" (fst (fst r))) r1 s in
      (* round 1.5 *)
      let* ts := (if existsb (fun c => support_lookup c) cs
                  then let* xs := t_challenge T s "tau" in Ok (Some (fst xs), snd xs)
                  else Ok (None, s)) in
      let tau := fst ts in let s := snd ts in
      let* r15 := map_res (fun i => let* c := index cs i in let* pk := index pks i in
                     if support_lookup c
                     then let* tau := expect tau in
                          let* r := run_plookup_1st_round pr rnd i (pk_ck pk) c tau in Ok (Some r)
                     else Ok None) (seq 0 k) in
      let* s := fold_res (fun s r => match r with
                            | Some (hc, _, _, _) => t_commitments s "h_poly_comms" hc
                            | None => Ok s end) r15 s in
      (* round 2 *)
      let* bs := t_challenge T s "beta" in
      let* gs := t_challenge T (snd bs) "gamma" in
      let beta := fst bs in let gamma := fst gs in let s := snd gs in
      let* r2 := map_res (fun i => let* c := index cs i in let* pk := index pks i in
                     run_2nd_round pr rnd i (pk_ck pk) c beta gamma) (seq 0 k) in
      let* s := fold_res (fun s r => t_commitment T s "perm_poly_comms" (fst r)) r2 s in
      (* round 2.5 *)
      let* r25 := map_res (fun i => let* c := index cs i in let* pk := index pks i in
                     if support_lookup c
                     then let* h := index r15 i in
                          let* r := run_plookup_2nd_round pr rnd i (pk_ck pk) c tau beta gamma
                                      (option_map snd h) (option_map (fun x => snd (fst x)) h) in
                          Ok (Some r)
                     else Ok None) (seq 0 k) in
      let* s := fold_res (fun s r => match r with
                            | Some pc => t_commitment T s "plookup_poly_comms" (fst pc)
                            | None => Ok s end) r25 s in
      let* ocs := map_res (fun i =>
                     let* a := index r1 i in let* b := index r15 i in let* c := index r2 i in let* d := index r25 i in
                     Ok (mk_or (snd (fst a)) (snd a) (snd c)
                           (match b with Some (_, hs, _, _) => hs | None => [] end)
                           (match d with Some pc => snd pc | None => [] end))) (seq 0 k) in
      (* round 3 *)
      let* al := t_challenge T s "alpha" in
      let ch := mk_ch tau (fst al) beta gamma 0 0 0 in
      let* r3 := run_3rd_round pr rnd (pk_ck pk0) pks ch ocs nw in
      let* s := t_commitments (snd al) "quot_poly_comms" (fst r3) in
      (* round 4 *)
      let* ze := t_challenge T s "zeta" in
      let zeta := fst ze in
      let ch := mk_ch tau (fst al) beta gamma zeta 0 0 in
      let evs := map (fun op => compute_evaluations pr (snd op) zeta (fst op) nw) (combine ocs pks) in
      let* s := fold_res t_evals evs (snd ze) in
      (* round 4.5 *)
      let* les := map_res (fun i => let* c := index cs i in let* pk := index pks i in let* oc := index ocs i in
                     if support_lookup c
                     then let* le := compute_plookup_evaluations pr pk zeta oc in Ok (Some le)
                     else Ok None) (seq 0 k) in
      let* s := fold_res (fun s le => match le with Some le => t_plookup_evals s le | None => Ok s end) les s in
      let* lq := lin_quot n zeta (snd r3) in
      let* lin := fold_res (fun la i =>
                     let* pk := index pks i in let* oc := index ocs i in let* pe := index evs i in let* le := index les i in
                     let* l := lin_instance pr (snd la) pk ch oc pe le in
                     Ok (paddp K (fst la) l, next_alpha_base ch (is_some le) (snd la))) (seq 0 k) (lq, 1) in
      (* round 5 *)
      let* vs := t_challenge T s "v" in
      let ch := mk_ch tau (fst al) beta gamma zeta (fst vs) 0 in
      let* ww := compute_opening_proofs pr (pk_ck pk0) pks zeta (fst vs) ocs (fst lin) in
      let* lks := map_res (fun i => let* c := index cs i in
                     if support_lookup c
                     then let* h := index r15 i in let* p := index r25 i in let* le := index les i in
                          let* h := expect h in let* p := expect p in let* le := expect le in
                          Ok (Some (mk_plp (fst (fst (fst h))) (fst p) le))
                     else Ok None) (seq 0 k) in
      Ok (mk_bp (map (fun r => fst (fst r)) r1) (map fst r2) evs lks (fst r3) (fst ww) (snd ww), ocs, ch).
  (** snark.rs:61-74 *)
  Definition batch_prove (rnd : randomness) (cs : list circuit) (pks : list pkey) : outcome perr batch_proof :=
    let* r := batch_prove_internal rnd cs pks None in Ok (fst (fst r)).
  (** snark.rs:576-611 *)
  Definition prove (rnd : randomness) (c : circuit) (pk : pkey) (extra : option (list nat)) : outcome perr proof :=
    let* r := batch_prove_internal rnd [c] [pk] extra in
    let b := fst (fst r) in
    let* ws := index (bp_wires b) 0 in
    let* z := index (bp_perms b) 0 in
    let* ev := index (bp_evals b) 0 in
    let* lk := index (bp_plookups b) 0 in
    Ok (mk_proof ws z (bp_quots b) (bp_open b) (bp_shifted b) ev lk).

  (** snark.rs:494-573 *)
  Definition preprocess (s : srs K V1 V2) (c : circuit) : outcome perr (pkey * vkey) :=
    let* d := eval_domain c in
    let n := dsize d in
    if (max_degree K V1 V2 s <? n + 2)%nat then Err IndexTooLarge
    else
      let* sels := compute_selector_polynomials c in
      let* sigs := compute_extended_permutation_polynomials c in
      let* lp := (if support_lookup c
                  then
                    let* rt := compute_range_table_polynomial c in
                    let* kt := compute_gate_column_polynomial table_key c in
                    let* tds := compute_gate_column_polynomial table_dom_sep c in
                    let* qds := compute_gate_column_polynomial q_dom_sep c in
                    Ok (Some (mk_plookup_pk rt kt tds qds))
                  else Ok None) in
      let* keys := lift_pcs (trim_srs K V1 V2 s (n + 2)) in
      let ck := fst keys in
      let* sel_cs := lift_pcs (batch_commit K V1 ck sels) in
      let* sig_cs := lift_pcs (batch_commit K V1 ck sigs) in
      let* lv := match lp with
                 | None => Ok None
                 | Some lp =>
                     let* a := lift_pcs (commit K V1 ck (lp_range lp)) in
                     let* b := lift_pcs (commit K V1 ck (lp_key lp)) in
                     let* c := lift_pcs (commit K V1 ck (lp_table_dom_sep lp)) in
                     let* d := lift_pcs (commit K V1 ck (lp_q_dom_sep lp)) in
                     Ok (Some (mk_plookup_vk a b c d))
                 end in
      let* ks := coset_ks (num_wire_types c) n in
      let vk := mk_vkey n (num_inputs c) sig_cs sel_cs ks (snd keys) false lv in
      Ok (mk_pkey sigs sels ck vk lp, vk).

  (** ** Verifier *)

  (** verifier.rs:64-68 *)
  Definition verifier_new (n : nat) : outcome perr Dom :=
    match radix2 n with Some d => Ok d | None => Err DomainCreationError end.

  (** verifier.rs:258-343 *)
  Definition compute_challenges (vks : list vkey) (pis : list (list K)) (b : batch_proof) (extra : option (list nat)) :
      outcome perr challenges :=
    if negb (length vks =? bp_len b)%nat || negb (length vks =? length pis)%nat then Err ParamError
    else
      let* s := t_start extra (combine vks pis) in
      let* s := fold_res (fun s cs => t_commitments s "witness_poly_comms" cs) (bp_wires b) s in
      let* ts := (if existsb (fun vk => is_some (vk_plookup vk)) vks
                  then let* xs := t_challenge T s "tau" in Ok (Some (fst xs), snd xs)
                  else Ok (None, s)) in
      let* s := fold_res (fun s p => match p with Some lk => t_commitments s "h_poly_comms" (lk_h_comms lk) | None => Ok s end)
                  (bp_plookups b) (snd ts) in
      let* bs := t_challenge T s "beta" in
      let* gs := t_challenge T (snd bs) "gamma" in
      let* s := fold_res (fun s c => t_commitment T s "perm_poly_comms" c) (bp_perms b) (snd gs) in
      let* s := fold_res (fun s p => match p with Some lk => t_commitment T s "plookup_poly_comms" (lk_prod_comm lk) | None => Ok s end)
                  (bp_plookups b) s in
      let* al := t_challenge T s "alpha" in
      let* s := t_commitments (snd al) "quot_poly_comms" (bp_quots b) in
      let* ze := t_challenge T s "zeta" in
      let* s := fold_res t_evals (bp_evals b) (snd ze) in
      let* s := fold_res (fun s p => match p with Some lk => t_plookup_evals s (lk_evals lk) | None => Ok s end)
                  (bp_plookups b) s in
      let* vs := t_challenge T s "v" in
      let* s := t_commitment T (snd vs) "open_proof" (bp_open b) in
      let* s := t_commitment T s "shifted_open_proof" (bp_shifted b) in
      let* us := t_challenge T s "u" in
      Ok (mk_ch (fst ts) (fst al) (fst bs) (fst gs) (fst ze) (fst vs) (fst us)).

  (** verifier.rs:889-929 *)
  Definition evaluate_pi_poly (d : Dom) (pi : list K) (z : K) (merged : bool) : outcome perr K :=
    let len := if merged then (length pi / 2)%nat else length pi in
    let* lc := lagrange_coeffs_for_range d 1 0 len z in
    let r := fsum (map (fun vl => snd vl * fst vl) (combine (firstn len pi) lc)) in
    if merged
    then
      let n := dsize d in
      let* lc' := (if (n <? len)%nat then Panic else lagrange_coeffs_for_range d 1 (n - len) n z) in
      Ok (r + fsum (map (fun vl => snd vl * fst vl) (combine (skipn len pi) (rev lc'))))
    else Ok r.

  (** verifier.rs:385-428 for one instance; [a2 a3] are [alpha_powers[0]] and [alpha_powers[1]] *)
  Definition lin_const_instance (d : Dom) (ch : challenges) (l1 ln a2 a3 : K) (pe : proof_evals)
      (lk : option plookup_proof) (pi : list K) (vk : vkey) : outcome perr K :=
    let* pe_pi := evaluate_pi_poly d pi (ch_zeta ch) (vk_merged vk) in
    let nw := if is_some lk then 6%nat else 5%nat in
    let* first_w := slice (wires_evals pe) 0 (nw - 1) in
    let* last_w := index (wires_evals pe) (nw - 1) in
    let tmp := pe_pi - a2 * l1
               - fold_left (fun acc ws => acc * (ch_gamma ch + fst ws + ch_beta ch * snd ws))
                   (combine first_w (sigma_evals pe))
                   (ch_alpha ch * perm_next_eval pe * (ch_gamma ch + last_w)) in
    match lk with
    | None => Ok tmp
    | Some p =>
        let ev := lk_evals p in
        let gb1 := ch_gamma ch * (1 + ch_beta ch) in
        let pc := ln * (h1_eval ev - h2_next_eval ev - a2) - ch_alpha ch * l1
                  - a3 * (ch_zeta ch - finv (dgen d)) * prod_next_eval ev
                    * (gb1 + h1_eval ev + ch_beta ch * h1_next_eval ev)
                    * (gb1 + ch_beta ch * h2_next_eval ev) in
        Ok (tmp + a3 * pc)
    end.
  (** verifier.rs:362-432 *)
  Definition compute_lin_poly_constant_term (d : Dom) (ch : challenges) (vks : list vkey) (pis : list (list K))
      (b : batch_proof) (l1 ln a2 a3 : K) (bases : list K) : outcome perr K :=
    if negb (length vks =? bp_len b)%nat || negb (length vks =? length pis)%nat || negb (length vks =? length bases)%nat
    then Err ParamError
    else
      fold_res (fun acc x =>
          let '(pe, (lk, (pi, (vk, base)))) := x in
          let* t := lin_const_instance d ch l1 ln a2 a3 pe lk pi vk in
          Ok (acc + base * t))
        (combine (bp_evals b) (combine (bp_plookups b) (combine pis (combine vks bases)))) 0.

  (** verifier.rs:563-672 for one instance: the scalars and bases in the order pushed.
      [alpha_powers] is [alpha^2 .. alpha^6]. *)
  Definition lin_terms_instance (d : Dom) (ch : challenges) (l1 ln a2 a4 a5 a6 : K) (wcs : list V1) (zc : V1)
      (pe : proof_evals) (lk : option plookup_proof) (vk : vkey) (base : K) : outcome perr (list (K * V1)) :=
    let w := wires_evals pe in
    let beta := ch_beta ch in let gamma := ch_gamma ch in let zeta := ch_zeta ch in
    let cz := (a2 * l1 + fold_left (fun acc wk => acc * (beta * snd wk * zeta + gamma + fst wk)) (combine w (vk_k vk)) (ch_alpha ch))
              * base in
    let* _ := assert_p (1 <=? length wcs)%nat in
    let cs := fold_left (fun acc ws => acc * (beta * snd ws + gamma + fst ws))
                (combine (firstn (length wcs - 1) w) (sigma_evals pe)) (ch_alpha ch * beta * perm_next_eval pe) * base in
    let* sg := (match rev (vk_sigmas vk) with c :: _ => Ok c | [] => Err PIndexError end) in
    let* ss := selector_scalars w in
    let sels := map (fun sc => (fst sc * base, snd sc)) (combine ss (vk_selectors vk)) in
    let* lks := match lk with
                | None => Ok []
                | Some p =>
                    let ev := lk_evals p in
                    let* tau := expect (ch_tau ch) in
                    let* w0 := index w 0 in let* w1 := index w 1 in let* w2 := index w 2 in
                    let* w3 := index w 3 in let* w4 := index w 4 in let* w5 := index w 5 in
                    let lookup := eval_merged_lookup_witness tau w5 w0 w1 w2 (q_lookup_eval ev) (q_dom_sep_eval ev) in
                    let table := eval_merged_table tau (range_table_eval ev) (key_table_eval ev) (q_lookup_eval ev) w3 w4
                                   (table_dom_sep_eval ev) in
                    let table_w := eval_merged_table tau (range_table_next_eval ev) (key_table_next_eval ev)
                                     (q_lookup_next_eval ev) (w3_next_eval ev) (w4_next_eval ev) (table_dom_sep_next_eval ev) in
                    let b1 := 1 + beta in let gb1 := b1 * gamma in
                    let c1 := base * (a4 * l1 + a5 * ln
                                + a6 * (zeta - finv (dgen d)) * b1 * (gamma + lookup) * (gb1 + table + beta * table_w)) in
                    let c2 := base * a6 * (finv (dgen d) - zeta) * prod_next_eval ev
                              * (gb1 + h1_eval ev + beta * h1_next_eval ev) in
                    let* h2 := index (lk_h_comms p) 1 in
                    Ok [(c1, lk_prod_comm p); (c2, h2)]
                end in
    Ok ((cz, zc) :: (- cs, sg) :: sels ++ lks).
  (** verifier.rs:674-690 *)
  Fixpoint quot_terms (zn2 coeff : K) (cs : list V1) : list (K * V1) :=
    match cs with [] => [] | c :: cs' => (coeff, c) :: quot_terms zn2 (coeff * zn2) cs' end.
  (** verifier.rs:538-692 *)
  Definition linearization_scalars_and_bases (d : Dom) (vks : list vkey) (ch : challenges) (vanish l1 ln : K)
      (b : batch_proof) (a2 a4 a5 a6 : K) (bases : list K) : outcome perr (list (V1 * K)) :=
    if negb (length vks =? bp_len b)%nat || negb (length bases =? length vks)%nat then Err ParamError
    else
      let* ts := map_res (fun x =>
                     let '(i, (vk, base)) := x in
                     let* pe := index (bp_evals b) i in
                     let* zc := index (bp_perms b) i in
                     let* wcs := index (bp_wires b) i in
                     let* lk := index (bp_plookups b) i in
                     lin_terms_instance d ch l1 ln a2 a4 a5 a6 wcs zc pe lk vk base)
                   (combine (seq 0 (length vks)) (combine vks bases)) in
      let zn2 := (1 + vanish) * ch_zeta ch * ch_zeta ch in
      let* _ := guard (negb (length (bp_quots b) =? 0)%nat) PIndexError in
      Ok (sb_pushes (concat ts ++ quot_terms zn2 (- vanish) (bp_quots b)) []).

  (** verifier.rs:790-800: a run of [add_poly_comm]s; returns the pairs pushed and the next combiner *)
  Fixpoint add_comms (r base : K) (cs : list V1) : list (K * V1) * K :=
    match cs with
    | [] => ([], base)
    | c :: cs' => let x := add_comms r (base * r) cs' in ((base, c) :: fst x, snd x)
    end.
  (** verifier.rs:829-842 *)
  Definition plookup_open_comms (p : plookup_proof) (vk : vkey) : outcome perr (list V1) :=
    let* lv := expect (vk_plookup vk) in
    let* h1 := index (lk_h_comms p) 0 in
    let* ql := q_lookup_comm vk in
    Ok [lv_range lv; lv_key lv; h1; ql; lv_table_dom_sep lv; lv_q_dom_sep lv].
  (** verifier.rs:847-864 *)
  Definition plookup_shifted_open_comms (p : plookup_proof) (vk : vkey) (wcs : list V1) : outcome perr (list V1) :=
    let* lv := expect (vk_plookup vk) in
    let* h1 := index (lk_h_comms p) 0 in
    let* h2 := index (lk_h_comms p) 1 in
    let* ql := q_lookup_comm vk in
    let* w3 := index wcs 3 in
    let* w4 := index wcs 4 in
    Ok [lk_prod_comm p; lv_range lv; lv_key lv; h1; h2; ql; w3; w4; lv_table_dom_sep lv].
  (** verifier.rs:481-526 for one instance; returns the pairs pushed and both combiners *)
  Definition agg_instance (v vb uvb : K) (wcs : list V1) (zc : V1) (lk : option plookup_proof) (vk : vkey) :
      outcome perr (list (K * V1) * K * K) :=
    let a := add_comms v vb wcs in
    let* _ := assert_p (1 <=? length wcs)%nat in
    let s := add_comms v (snd a) (firstn (length wcs - 1) (vk_sigmas vk)) in
    let z := add_comms v uvb [zc] in
    match lk with
    | None => Ok (fst a ++ fst s ++ fst z, snd s, snd z)
    | Some p =>
        let* oc := plookup_open_comms p vk in
        let* sc := plookup_shifted_open_comms p vk wcs in
        let o := add_comms v (snd s) oc in
        let t := add_comms v (snd z) sc in
        Ok (fst a ++ fst s ++ fst z ++ fst o ++ fst t, snd o, snd t)
    end.
  (** verifier.rs:437-531; returns the map and the list of combiners *)
  Definition aggregate_poly_commitments (d : Dom) (vks : list vkey) (ch : challenges) (vanish l1 ln : K) (b : batch_proof)
      (a2 a4 a5 a6 : K) (bases : list K) : outcome perr (list (V1 * K) * list K) :=
    if negb (length vks =? bp_len b)%nat then Err ParamError
    else
      let* sb := linearization_scalars_and_bases d vks ch vanish l1 ln b a2 a4 a5 a6 bases in
      let* r := fold_res (fun st iv =>
                   let '(ps, vb, uvb) := st in
                   let '(i, vk) := iv in
                   let* wcs := index (bp_wires b) i in
                   let* zc := index (bp_perms b) i in
                   let* lk := index (bp_plookups b) i in
                   let* x := agg_instance (ch_v ch) vb uvb wcs zc lk vk in
                   Ok (ps ++ fst (fst x), snd (fst x), snd x))
                 (combine (seq 0 (length vks)) vks) ([], ch_v ch, ch_u ch) in
      let ps := fst (fst r) in
      Ok (sb_pushes ps sb, map fst ps).
  (** The evaluations of one instance in the order of verifier.rs:707-756 *)
  Definition evals_instance (pe : proof_evals) (lk : option plookup_proof) : list K :=
    wires_evals pe ++ sigma_evals pe ++ [perm_next_eval pe]
    ++ match lk with Some p => evals_vec (lk_evals p) ++ next_evals_vec (lk_evals p) | None => [] end.
  (** verifier.rs:697-765: an exhausted or unconsumed buffer is the same error *)
  Definition aggregate_evaluations (const : K) (pes : list proof_evals) (lks : list (option plookup_proof)) (buf : list K) :
      outcome perr K :=
    let* _ := assert_p (length pes =? length lks)%nat in
    let evs := concat (map (fun x => evals_instance (fst x) (snd x)) (combine pes lks)) in
    let* _ := guard (length evs =? length buf)%nat IteratorOutOfRange in
    Ok (fold_left (fun acc eb => acc + fst eb * snd eb) (combine evs buf) (- const)).

  (** verifier.rs:41-50 *)
  Record pcs_info := mk_info {
    in_u : K; in_point : K; in_next : K; in_eval : K; in_comm : list (V1 * K); in_open : V1; in_shifted : V1 }.

  (** verifier.rs:132-144: [1, x, x^2, ...] *)
  Fixpoint alpha_bases_from (cur x : K) (k : nat) : list K :=
    match k with 0%nat => [] | S k' => cur :: alpha_bases_from (cur * x) x k' end.
  (** verifier.rs:84-113 for one instance *)
  Definition check_vk (d : Dom) (b : batch_proof) (i : nat) (pi : list K) (vk : vkey) : outcome perr unit :=
    let* _ := guard (length pi =? vk_inputs vk)%nat ParamError in
    let* lk := index (bp_plookups b) i in
    let* _ := guard (Bool.eqb (is_some (vk_plookup vk)) (is_some lk)) ParamError in
    guard (vk_n vk =? dsize d)%nat ParamError.
  (** verifier.rs:71-187 *)
  Definition prepare_pcs_info (d : Dom) (vks : list vkey) (pis : list (list K)) (b : batch_proof) (extra : option (list nat)) :
      outcome perr pcs_info :=
    if negb (length vks =? bp_len b)%nat || negb (length vks =? length pis)%nat || (length vks =? 0)%nat then Err ParamError
    else
      let* _ := map_res (fun x => let '(i, (pi, vk)) := x in check_vk d b i pi vk)
                  (combine (seq 0 (length vks)) (combine pis vks)) in
      let* ch := compute_challenges vks pis b extra in
      let a := ch_alpha ch in
      let a2 := a * a in let a3 := a2 * a in let a4 := a2 * a2 in let a5 := a2 * a3 in let a6 := a4 * a2 in
      let a7 := a3 * a4 in
      let* vk0 := index vks 0 in
      let bases := 1 :: alpha_bases_from (if is_some (vk_plookup vk0) then a7 else a3)
                          (if is_some (vk_plookup vk0) then a7 else a3) (length vks - 1) in
      let vanish := vanish_at d 1 (ch_zeta ch) in
      let* ll := first_and_last_lagrange_coeffs d 1 (ch_zeta ch) in
      let* const := compute_lin_poly_constant_term d ch vks pis b (fst ll) (snd ll) a2 a3 bases in
      let* agg := aggregate_poly_commitments d vks ch vanish (fst ll) (snd ll) b a2 a4 a5 a6 bases in
      let* ev := aggregate_evaluations const (bp_evals b) (bp_plookups b) (snd agg) in
      Ok (mk_info (ch_u ch) (ch_zeta ch) (ch_zeta ch * dgen d) ev (fst agg) (bp_open b) (bp_shifted b)).

  (** verifier.rs:199-253; the pairing product is written additively *)
  Definition batch_r (infos : list pcs_info) : outcome perr K :=
    if (length infos =? 1)%nat then Ok 1
    else
      let* s := fold_res (fun s x => t_field T s "u" (in_u x)) infos (t_new T "batch verify") in
      let* rs := t_challenge T s "r" in
      Ok (fst rs).
  Definition batch_A (r : K) (infos : list pcs_info) : list (V1 * K) * K :=
    fold_left (fun st x => (sb_push (snd st * in_u x) (in_shifted x) (sb_push (snd st) (in_open x) (fst st)), snd st * r))
      infos ([], 1).
  Definition batch_B (r : K) (infos : list pcs_info) : list (V1 * K) * K * K :=
    fold_left (fun st x =>
        let '(m, se, rb) := st in
        let m := sb_merge rb (in_comm x) m in
        let m := sb_push (rb * in_point x) (in_open x) m in
        let m := sb_push (rb * in_u x * in_next x) (in_shifted x) m in
        (m, se + rb * in_eval x, rb * r)) infos ([], 0, 1).
  Definition check_openings (ok : open_key) (r : K) (infos : list pcs_info) : bool :=
    let A := sb_msm (fst (batch_A r infos)) in
    let '(m, se, _) := batch_B r infos in
    let B := sb_msm (sb_push (- se) (vg ok) m) in
    veqb (vadd (e A (vbeta_h ok)) (e (vopp B) (vh ok))) v0.
  Definition batch_verify_opening_proofs (ok : open_key) (infos : list pcs_info) : outcome perr bool :=
    let* r := batch_r infos in Ok (check_openings ok r infos).

  (** snark.rs:77-101 *)
  Definition verify_batch_proof (vks : list vkey) (pis : list (list K)) (b : batch_proof) : outcome perr unit :=
    match vks with
    | [] => Err ParamError
    | vk0 :: _ =>
        let* d := verifier_new (vk_n vk0) in
        let* info := prepare_pcs_info d vks pis b None in
        let* ok := batch_verify_opening_proofs (vk_open vk0) [info] in
        if ok then Ok tt else Err WrongProof
    end.
  (** snark.rs:104-150 *)
  Definition batch_verify (vks : list vkey) (pis : list (list K)) (ps : list proof) (extras : list (option (list nat))) :
      outcome perr unit :=
    if negb (length pis =? length ps)%nat || negb (length vks =? length ps)%nat || negb (length extras =? length ps)%nat
    then Err ParamError
    else match vks with
    | [] => Err ParamError
    | vk0 :: _ =>
        let* infos := map_res (fun x =>
                          let '(((vk, p), pi), extra) := x in
                          let* d := verifier_new (vk_n vk) in
                          prepare_pcs_info d [vk] [pi] (batch_of_proof p) extra)
                        (combine (combine (combine vks ps) pis) extras) in
        let* ok := batch_verify_opening_proofs (vk_open vk0) infos in
        if ok then Ok tt else Err WrongProof
    end.
  (** snark.rs:613-631 *)
  Definition verify_proof (vk : vkey) (pi : list K) (p : proof) (extra : option (list nat)) : outcome perr unit :=
    batch_verify [vk] [pi] [p] [extra].
End Plonk.
