(** Model of the three transcripts, plonk/src/transcript/{mod,rescue,solidity,standard}.rs,
    of the conversion of commitments they use (relation/src/gadgets/ecc/conversion.rs) and of
    the proof codec of plonk/src/proof_system/structs.rs.

    The scalar field is the prime field of [r] elements and the base field of the curve that
    of [q] elements.  The groups stay abstract: [xy] gives the affine coordinates of a
    commitment ([None] at infinity), [g1b], [g2b] and [frb] the bytes of
    [CanonicalSerialize] (compressed) of a commitment, a G2 point and a scalar.  Keccak-256 and the
    Merlin transcript are external and stay parameters. *)
From Coq Require Import String List Arith ZArith Lia Bool.
From Verif Require Import Base ListAux Alg ConvModel RescueModel KzgModel PlonkModel.
Import ListNotations.

Section Transcripts.
  Variables (r q : Z) (Hr : Znumtheory.prime r) (Hq : Znumtheory.prime q).
  Notation Fr := (Zp r Hr).
  Notation Fq := (Zp q Hq).
  Notation PR := {| modulus := r |}.
  Notation PQ := {| modulus := q |}.
  Variables V1 V2 : vsp Fr.
  Notation vkey := (vkey Fr V1 V2).
  Notation transcript := (transcript Fr V1 V2).
  Variable xy : V1 -> option (Fq * Fq).
  Variable g1b : V1 -> list Z.
  Variable g2b : V2 -> list Z.
  Variable frb : Fr -> list Z.

  (** [BigInteger::to_bytes_be] and [from_be_bytes_mod_order] of ark_ff *)
  Definition be_bytes (P : pfield) (v : Z) : list Z := rev (bigint_bytes P v).
  Definition from_be_bytes_mod_order (P : pfield) (bs : list Z) : Z := le_val (rev bs) mod modulus P.
  (** [uN::to_be_bytes] and [uN::to_le_bytes] for a width of [n] bytes *)
  Definition int_be (n : nat) (v : Z) : list Z := rev (le_bytes n v).
  Definition int_le (n : nat) (v : Z) : list Z := le_bytes n v.
  Definition zbytes (m : list nat) : list Z := map Z.of_nat m.

  (** ** SolidityTranscript (solidity.rs) *)
  Variable keccak : list Z -> list Z.
  (** solidity.rs:32-35 *)
  Record sol_state := mk_sol { sol_st : list Z; sol_tr : list Z }.
  (** solidity.rs:39-44; [KECCAK256_STATE_SIZE] = 32 *)
  Definition sol_new : sol_state := mk_sol (repeat 0%Z 32) [].
  (** solidity.rs:47-52 *)
  Definition sol_message (s : sol_state) (msg : list Z) : sol_state := mk_sol (sol_st s) (sol_tr s ++ msg).
  (** solidity.rs:54-77 *)
  Definition sol_commitment (s : sol_state) (c : V1) : sol_state :=
    let p := match xy c with None => (f0 : Fq, f0 : Fq) | Some p => p end in
    sol_message s (be_bytes PQ (zv q (fst p)) ++ be_bytes PQ (zv q (snd p))).
  (** solidity.rs:79-92 *)
  Definition sol_field (s : sol_state) (x : Fr) : sol_state := sol_message s (be_bytes PR (zv r x)).
  (** solidity.rs:94-146 *)
  Definition sol_vk_pi (s : sol_state) (vk : vkey) (pi : list Fr) : outcome perr sol_state :=
    let s := sol_message s (int_be 4 (bit_size PR)) in
    let s := sol_message s (int_be 8 (Z.of_nat (vk_n Fr V1 V2 vk))) in
    let s := sol_message s (int_be 8 (Z.of_nat (vk_inputs Fr V1 V2 vk))) in
    let s := sol_message s (repeat 0%Z 12) in
    let* h1 := index (vpowers_of_h (vk_open Fr V1 V2 vk)) 1 in
    let s := sol_message s (g2b h1) in
    let s := fold_left sol_field (vk_k Fr V1 V2 vk) s in
    let s := fold_left sol_commitment (vk_selectors Fr V1 V2 vk) s in
    let s := fold_left sol_commitment (vk_sigmas Fr V1 V2 vk) s in
    Ok (fold_left sol_field pi s).
  (** solidity.rs:148-166 *)
  Definition sol_challenge (s : sol_state) : Fr * sol_state :=
    let buf := keccak (sol_st s ++ sol_tr s) in
    (zmk r (from_be_bytes_mod_order PR buf), mk_sol buf []).
  Definition solidity : transcript :=
    mk_transcript Fr V1 V2 sol_state (fun _ => sol_new) (fun s _ m => Ok (sol_message s (zbytes m))) sol_vk_pi
      (fun s _ c => Ok (sol_commitment s c)) (fun s _ x => Ok (sol_field s x)) (fun s _ => Ok (sol_challenge s)).

  (** ** RescueTranscript (rescue.rs) *)
  Variable RP : rescue_params Fq.
  (** relation/src/gadgets/ecc/conversion.rs:58-66 [S], [NEG_ALPHA], [BETA] *)
  Variables te_s te_nalpha te_beta : Fq.
  (** conversion.rs:27-55; division by zero panics in ark_ff. *)
  Definition fdivp (a b : Fq) : outcome perr Fq := if feqb b f0 then Panic else Ok (fmul a (finv b)).
  Definition sw_to_te (p : option (Fq * Fq)) : outcome perr (Fq * Fq) :=
    match p with
    | None => Ok (f0, f1)
    | Some (x, y) =>
        let mx := fmul te_s (fadd x te_nalpha) in
        let my := fmul te_s y in
        let* ex := fdivp (fmul te_beta mx) my in
        let* ey := fdivp (fsub mx f1) (fadd mx f1) in
        Ok (ex, ey)
    end.
  (** errors of the called crates; [()] carries no information *)
  Definition lift_u {A} (o : outcome unit A) : outcome perr A :=
    match o with Ok a => Ok a | Err _ => Err ParamError | Panic => Panic end.
  (** rescue.rs:37-43 *)
  Record res_state := mk_res { res_tr : list Fq; res_st : list Fq }.
  (** rescue.rs:50-55 *)
  Definition res_new : res_state := mk_res [] (repeat f0 STATE_SIZE).
  Definition res_push (s : res_state) (l : list Fq) : res_state := mk_res (res_tr s ++ l) (res_st s).
  (** rescue.rs:107-124 *)
  Definition res_commitment (s : res_state) (c : V1) : outcome perr res_state :=
    let* p := sw_to_te (xy c) in Ok (res_push s [fst p; snd p]).
  (** rescue.rs:126-136, also 138-165 *)
  Definition res_field (s : res_state) (x : Fr) : outcome perr res_state :=
    let* y := lift_u (field_switching PR PQ (zv r x)) in Ok (res_push s [zmk q y]).
  (** rescue.rs:57-94 *)
  Definition res_vk_pi (s : res_state) (vk : vkey) (pi : list Fr) : outcome perr res_state :=
    let* s := fold_res res_commitment (vk_selectors Fr V1 V2 vk) s in
    let* s := fold_res res_commitment (vk_sigmas Fr V1 V2 vk) s in
    fold_res res_field pi s.
  (** rescue.rs:97-105 *)
  Definition res_message (s : res_state) (m : list nat) : outcome perr res_state :=
    let* es := lift_u (bytes_to_field_elements PQ 1 (zbytes m)) in
    Ok (res_push s (map (zmk q) (concat es))).
  (** rescue.rs:167-186 *)
  Definition res_challenge (s : res_state) : outcome perr (Fr * res_state) :=
    let* tmp := lift_u (variable_crhf RP STATE_SIZE (res_st s ++ res_tr s)) in
    let* t0 := index tmp 0 in
    let* c := lift_u (fq_to_fr_with_mask PQ PR (zv q t0)) in
    Ok (zmk r c, mk_res [] tmp).
  Definition rescue : transcript :=
    mk_transcript Fr V1 V2 res_state (fun _ => res_new) (fun s _ m => res_message s m) res_vk_pi
      (fun s _ c => res_commitment s c) (fun s _ x => res_field s x) (fun s _ => res_challenge s).

  (** ** StandardTranscript (standard.rs): the methods of Merlin's transcript *)
  Variable mst : Type.
  Variable m_new : string -> mst.
  Variable m_append : mst -> string -> list Z -> mst.
  Variable m_challenge : mst -> string -> nat -> list Z * mst.
  (** mod.rs:106-116 *)
  Definition std_commitment (s : mst) (l : string) (c : V1) : mst := m_append s l (g1b c).
  (** mod.rs:119-128 *)
  Definition std_field (s : mst) (l : string) (x : Fr) : mst := m_append s l (frb x).
  (** mod.rs:46-84 *)
  Definition std_vk_pi (s : mst) (vk : vkey) (pi : list Fr) : outcome perr mst :=
    let s := m_append s "field size in bits" (int_le 4 (bit_size PR)) in
    let s := m_append s "domain size" (int_le 8 (Z.of_nat (vk_n Fr V1 V2 vk))) in
    let s := m_append s "input size" (int_le 8 (Z.of_nat (vk_inputs Fr V1 V2 vk))) in
    let* h1 := index (vpowers_of_h (vk_open Fr V1 V2 vk)) 1 in
    let s := m_append s "SRS G2 element" (g2b h1) in
    let s := fold_left (fun s x => std_field s "wire subsets separators" x) (vk_k Fr V1 V2 vk) s in
    let s := fold_left (fun s c => std_commitment s "selector commitments" c) (vk_selectors Fr V1 V2 vk) s in
    let s := fold_left (fun s c => std_commitment s "sigma commitments" c) (vk_sigmas Fr V1 V2 vk) s in
    Ok (fold_left (fun s x => std_field s "public input" x) pi s).
  (** standard.rs:30-42 *)
  Definition std_challenge (s : mst) (l : string) : Fr * mst :=
    let bs := m_challenge s l 64 in (zmk r (from_le_bytes_mod_order PR (fst bs)), snd bs).
  Definition standard : transcript :=
    mk_transcript Fr V1 V2 mst m_new (fun s l m => Ok (m_append s l (zbytes m))) std_vk_pi
      (fun s l c => Ok (std_commitment s l c)) (fun s l x => Ok (std_field s l x)) (fun s l => Ok (std_challenge s l)).

  (** ** Proof codec (structs.rs:78-206, 402-436) *)
  Notation proof := (proof Fr V1).
  Notation proof_evals := (proof_evals Fr).
  (** [Affine::new] of ark_ec asserts that the point is on the curve (and in the right
      subgroup): [aff x y] is the commitment with these coordinates, [None] when the
      assertion fails.  [Affine::x], [Affine::y] of the point at infinity are 0. *)
  Variable aff : Fq -> Fq -> option V1.
  Definition affine_new (x y : Fq) : outcome perr V1 := match aff x y with Some c => Ok c | None => Panic end.
  (** structs.rs:152-159 *)
  Definition group1_to_fields (c : V1) : list Fq :=
    match xy c with None => [f0; f0] | Some (x, y) => [x; y] end.
  (** structs.rs:410-431; [GATE_WIDTH] = 4 *)
  Definition evals_of_vec (v : list Fr) : outcome perr proof_evals :=
    let l := length v in
    if ((l =? 10) || (l =? 12))%nat
    then let* p := index v (l - 1) in
         Ok (mk_pe Fr (firstn (l / 2) v) (firstn (l - 1 - l / 2) (skipn (l / 2) v)) p)
    else Err ParamError.
  (** structs.rs:436-444 *)
  Definition vec_of_evals (x : proof_evals) : list Fr :=
    wires_evals Fr x ++ sigma_evals Fr x ++ [perm_next_eval Fr x].
  (** structs.rs:94-103; [chunks_exact(2)] *)
  Fixpoint points_of (v : list Fq) : outcome perr (list V1) :=
    match v with
    | x :: y :: v' => let* c := affine_new x y in let* cs := points_of v' in Ok (c :: cs)
    | _ => Ok []
    end.
  (** structs.rs:85-145; [TURBO_PLONK_LEN] = 36 *)
  Definition proof_of_fields (v : list Fq) : outcome perr proof :=
    if (length v =? 36)%nat
    then
      let* ws := points_of (firstn 10 v) in
      let* qs := points_of (firstn 10 (skipn 10 v)) in
      let pt i := let* x := index v i in let* y := index v (S i) in affine_new x y in
      let* pp := pt 20%nat in
      let* op := pt 22%nat in
      let* so := pt 24%nat in
      let* ev := evals_of_vec (map (fun x => zmk r (fq_to_fr PQ PR (zv q x))) (skipn 26 v)) in
      Ok (mk_proof Fr V1 ws pp qs op so ev None)
    else Err ParamError.
  (** structs.rs:176-205 *)
  Definition fields_of_proof (p : proof) : outcome perr (list Fq) :=
    if is_some (pf_plookup Fr V1 p) then Panic
    else Ok (flat_map group1_to_fields (pf_wires Fr V1 p) ++ flat_map group1_to_fields (pf_quots Fr V1 p)
             ++ group1_to_fields (pf_perm Fr V1 p) ++ group1_to_fields (pf_open Fr V1 p) ++ group1_to_fields (pf_shifted Fr V1 p)
             ++ map (fun x => zmk q (fr_to_fq PR PQ (zv r x))) (vec_of_evals (pf_evals Fr V1 p))).
End Transcripts.
