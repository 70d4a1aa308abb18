(** The base field of BLS12-377, which is the scalar field of BW6-761 (ark_bw6_761::Fr): its order is prime.  Nothing here
    models code of the repository. *)
Require Import List ZArith Znumtheory.
Import ListNotations.
Require Import Verif.Pocklington.
Local Open Scope Z_scope.

Definition q377 : Z := 0x1ae3a4617c510eac63b05c06ca1493b1a22d9f300f5138f1ef3622fba094800170b5d44300000008508c00000000001.

Lemma prime_62_bits : prime 6633514200929891813.
Proof.
  apply (pocklington_prime 6633514200929891813 0x23bc9408b6ce2a76 [(47521, 1%nat); (71924131, 1%nat)]).
  - intros f [<-|[<-|[]]]; cbn [fst]; [apply (trial_prime (4 * 30))|apply (trial_prime (4 * 1100))]; vm_compute; reflexivity.
  - vm_compute. reflexivity.
Qed.
Theorem prime_q377 : prime q377.
Proof.
  apply (thirds_prime q377 0x3ad0060b080b9b54c9af207d0cfdc489b7495aa4b99173c2fe789120c3bf17c37bb939d13faafb300c3aa214cba923
    [(6633514200929891813, 1%nat); (2557, 1%nat); (499, 1%nat); (2, 46%nat)]).
  - intros f [<-|[<-|[<-|[<-|[]]]]]; cbn [fst]; [exact prime_62_bits|apply (trial_prime 26)|apply (trial_prime 12)|exact prime_2]; vm_compute; reflexivity.
  - vm_compute. reflexivity.
  - vm_compute. reflexivity.
Qed.
