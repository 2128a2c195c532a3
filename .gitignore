*.vo
*.vos
*.vok
*.glob
*.aux
.*.aux
.lia.cache
.nia.cache
Makefile
Makefile.conf
.Makefile.d
rocq/Makefile*
.nra.cache
