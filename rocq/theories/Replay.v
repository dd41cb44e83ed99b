(** Replay.v -- the unit tests of the repository executed on the model.  These are tests of the
    model's fidelity, not proofs of properties.  Floating point results are compared bit by bit. *)
From Coq Require Import ZArith.
From Coq.Floats Require Import SpecFloat.
From Verif Require Import Base Num M_Mat M_Util M_Fasterpam M_Pam M_Alternating M_ParFasterpam
  M_Silhouette M_Msc M_Pammedsil M_Pamsil M_Dynmsc Inst.
Open Scope Z_scope.

(** LowerTriangle { n: 5, data: vec![1, 2, 3, 4, 5, 6, 7, 8, 9, 1] } in a debug build *)
Definition t5 : Mat Z := mat_of_lt true (mkLT 5%nat [1; 2; 3; 4; 5; 6; 7; 8; 9; 1]).

Definition f_0_7522494172494172 : f64 := S754_finite false 6775660390428296 (-53).
Definition f_0_9047619047619048 : f64 := S754_finite false 8149370754289469 (-53).
Definition f_0_5622222222222222 : f64 := S754_finite false 5064047580998824 (-53).
Definition f_0_8805555555555555 : f64 := S754_finite false 7931339343758040 (-53).
Definition f_0_9375 : f64 := S754_finite false 8444249301319680 (-53).
Definition f_0_87 : f64 := S754_finite false 7836263351624663 (-53).
Open Scope nat_scope.

(** a result together with the silhouette (f64) of its assignment *)
Definition with_sil {L} (M : Mat Z) (r : res (pam_result L)) : res (pam_result L * f64) :=
  r <- r ;; '(s, _) <- silhouette (Lt := f64) M (r_assi r) false ;; Ok (r, s).
Definition with_sils (M : Mat Z) (r : res (pam_result f64)) : res (pam_result f64 * f64 * f64) :=
  r <- r ;; '(s, _) <- silhouette (Lt := f64) M (r_assi r) false ;;
  '(ms, _) <- medoid_silhouette (Lt := f64) M (r_med r) false ;; Ok (r, s, ms).

(** fasterpam.rs:344-358 *)
Example testfasterpam_simple : with_sil t5 (fasterpam (Lt := Z) t5 [0; 1] 10)
  = Ok (mkPR 4%Z [0; 0; 0; 1; 1] 2 2 [0; 3], f_0_7522494172494172).
Proof. vm_compute. reflexivity. Qed.

(** fasterpam.rs:361-375 *)
Example testfasterpam_single_cluster : with_sil t5 (fasterpam (Lt := Z) t5 [1] 10)
  = Ok (mkPR 14%Z [0; 0; 0; 0; 0] 1 1 [0], S754_zero false).
Proof. vm_compute. reflexivity. Qed.

(** fasterpam.rs:383-399, with one of the orders for which the test passes *)
Example testrand_fasterpam :
  with_sil t5 (rand_fasterpam (Lt := Z) t5 [4; 1; 3; 0; 2] [0; 1] 10)
  = Ok (mkPR 4%Z [0; 0; 0; 1; 1] 2 1 [0; 4], f_0_7522494172494172).
Proof. vm_compute. reflexivity. Qed.

(** fastpam1.rs:98-112 *)
Example test_fastpam1_simple : with_sil t5 (fastpam1 (Lt := Z) t5 [0; 1] 10)
  = Ok (mkPR 4%Z [0; 0; 0; 1; 1] 2 1 [0; 3], f_0_7522494172494172).
Proof. vm_compute. reflexivity. Qed.

(** pam.rs:317-331, 334-345, 348-362 *)
Example test_pam_swap_simple : with_sil t5 (pam_swap (Lt := Z) t5 [0; 1] 10)
  = Ok (mkPR 4%Z [0; 0; 0; 1; 1] 2 1 [0; 3], f_0_7522494172494172).
Proof. vm_compute. reflexivity. Qed.
Example test_pam_build_simple : pam_build (Lt := Z) t5 2 = Ok (4%Z, [0; 0; 0; 1; 1], [0; 3]).
Proof. vm_compute. reflexivity. Qed.
Example test_pam_simple : with_sil t5 (pam (Lt := Z) t5 2 10)
  = Ok (mkPR 4%Z [0; 0; 0; 1; 1] 1 0 [0; 3], f_0_7522494172494172).
Proof. vm_compute. reflexivity. Qed.

(** alternating.rs:103-116 *)
Example test_alternating : with_sil t5 (alternating (Lt := Z) t5 [0; 1] 10)
  = Ok (mkPR 4%Z [1; 1; 1; 0; 0] 3 0 [3; 0], f_0_7522494172494172).
Proof. vm_compute. reflexivity. Qed.

(** par_fasterpam.rs:240-256, with some order, three threads and some reduction trees *)
Definition orc3 : oracle := {|
  o_init := RSplit 2 RSeq (RSplit 1 RSeq RSeq);
  o_find := fun _ _ => mkSched 3 [2; 0; 1];
  o_swap := fun _ _ => RSplit 3 (RSplit 1 RSeq RSeq) RSeq |}.
Example test_fasterpam_par :
  par_fasterpam (Lt := Z) t5 orc3 [4; 1; 3; 0; 2] [0; 1] 10
  = Ok (mkPR 4%Z [0; 0; 0; 1; 1] 2 1 [0; 4]) /\
  par_silhouette (Lt := f64) t5 [0; 0; 0; 1; 1] = Ok f_0_7522494172494172.
Proof. vm_compute. auto. Qed.

(** fastermsc.rs:468-485, 488-505 *)
Example testfastermsc_simple : with_sils t5 (fastermsc t5 [0; 1; 2] 10)
  = Ok (mkPR f_0_9047619047619048 [0; 0; 2; 1; 1] 2 1 [0; 3; 2],
        f_0_5622222222222222, f_0_9047619047619048).
Proof. vm_compute. reflexivity. Qed.
Example testfastermsc_simple2 : with_sils t5 (fastermsc t5 [0; 1] 10)
  = Ok (mkPR f_0_8805555555555555 [0; 0; 0; 1; 1] 2 3 [0; 4],
        f_0_7522494172494172, f_0_8805555555555555).
Proof. vm_compute. reflexivity. Qed.

(** fastmsc.rs:148-165, 168-185 *)
Example testfastpammedsil_simple : with_sils t5 (fastmsc t5 [0; 1; 2] 10)
  = Ok (mkPR f_0_9047619047619048 [0; 0; 2; 1; 1] 2 1 [0; 3; 2],
        f_0_5622222222222222, f_0_9047619047619048).
Proof. vm_compute. reflexivity. Qed.
Example testfastpammedsil_simple2 : with_sils t5 (fastmsc t5 [0; 1] 10)
  = Ok (mkPR f_0_8805555555555555 [0; 0; 0; 1; 1] 2 1 [0; 4],
        f_0_7522494172494172, f_0_8805555555555555).
Proof. vm_compute. reflexivity. Qed.

(** pammedsil.rs:346-362, 365-382, 385-402 *)
Example test_pammedsil : with_sils t5 (pammedsil t5 3 10)
  = Ok (mkPR f_0_9047619047619048 [0; 0; 2; 1; 1] 1 0 [0; 3; 2],
        f_0_5622222222222222, f_0_9047619047619048).
Proof. vm_compute. reflexivity. Qed.
Example testpammedsil_simple : with_sils t5 (pammedsil_swap t5 [0; 1; 2] 10)
  = Ok (mkPR f_0_9047619047619048 [0; 0; 2; 1; 1] 2 1 [0; 3; 2],
        f_0_5622222222222222, f_0_9047619047619048).
Proof. vm_compute. reflexivity. Qed.
Example testpammedsil_simple2 : with_sils t5 (pammedsil_swap t5 [0; 1] 10)
  = Ok (mkPR f_0_8805555555555555 [0; 0; 0; 1; 1] 2 1 [0; 4],
        f_0_7522494172494172, f_0_8805555555555555).
Proof. vm_compute. reflexivity. Qed.

(** pamsil.rs:226-240, 243-257, 260-275 *)
Example test_pamsil : with_sil t5 (pamsil (Lt := f64) t5 2 10)
  = Ok (mkPR f_0_7522494172494172 [0; 0; 0; 1; 1] 2 1 [1; 3], f_0_7522494172494172).
Proof. vm_compute. reflexivity. Qed.
Example test_pamsil3 : with_sil t5 (pamsil (Lt := f64) t5 3 10)
  = Ok (mkPR f_0_5622222222222222 [0; 0; 2; 1; 1] 2 1 [1; 3; 2], f_0_5622222222222222).
Proof. vm_compute. reflexivity. Qed.
Example testpamsil_simple : with_sil t5 (pamsil_swap (Lt := f64) t5 [0; 1; 2] 10)
  = Ok (mkPR f_0_5622222222222222 [1; 1; 2; 0; 0] 2 1 [3; 1; 2], f_0_5622222222222222).
Proof. vm_compute. reflexivity. Qed.

(** dynmsc.rs:253-263 and 265-275, for all initial medoids (three different objects in any order)
    the random initialisation may give *)
Definition a4 : Mat Z :=
  mat_of_rows [[0; 1; 2; 3]; [1; 0; 4; 5]; [2; 4; 0; 6]; [3; 5; 6; 0]]%Z.
Definition a5 : Mat Z :=
  mat_of_rows [[0; 1; 2; 3; 1]; [1; 0; 4; 5; 2]; [2; 4; 0; 6; 3]; [3; 5; 6; 0; 4];
               [2; 1; 5; 6; 5]]%Z.
Definition triples (n : nat) : list (list nat) :=
  filter (fun l => match l with
                   | [a; b; c] => negb ((a =? b) || (a =? c) || (b =? c))
                   | _ => false end)
    (flat_map (fun a => flat_map (fun b => map (fun c => [a; b; c]) (seq 0 n)) (seq 0 n)) (seq 0 n)).
Definition dyn_check (M : Mat Z) (mink : nat) (expect : f64) (med : list nat) : bool :=
  match r <- dynmsc (Lt := f64) M med mink 100 ;;
        '(_, _) <- silhouette (Lt := f64) M (r_assi (d_res r)) false ;;
        '(ms, _) <- medoid_silhouette (Lt := f64) M (r_med (d_res r)) false ;; Ok (r, ms) with
  | Ok (r, ms) => SFeqb (r_loss (d_res r)) expect && SFeqb ms expect
                  && (length (r_med (d_res r)) =? 3)
  | Panic _ => false
  end.
Example testdynmsc_simple : forallb (dyn_check a4 2 f_0_9375) (triples 4) = true.
Proof. vm_compute. reflexivity. Qed.
Example testdynmsc_mink : forallb (dyn_check a5 1 f_0_87) (triples 5) = true.
Proof. vm_compute. reflexivity. Qed.
