*.vo
*.vok
*.vos
*.glob
*.aux
.*.aux
Makefile*
.Makefile*
.lia.cache
