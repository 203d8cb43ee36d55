*.vo
*.vok
*.vos
*.glob
*.aux
.*.aux
Makefile*
.Makefile*
.lia.cache
.nia.cache
rocq/.coqdeps.d
__pycache__/
