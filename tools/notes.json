{
 "C50": {
  "status": "proved",
  "note": "The claim is refuted by a witness: five nested calls read through a dangling reference."
 }
}